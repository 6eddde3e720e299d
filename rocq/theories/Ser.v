(** Model of the serializer, ser/mod.rs. *)
From Coq Require Import String Ascii NArith ZArith Bool List.
From Verif Require Import Base Value Data Parse De.
Import ListNotations.
Open Scope N_scope.
Open Scope list_scope.

(** ** Configuration *)

(** path_meta::Field / Fields (ser/path_meta.rs:108-113, 236-240); the hash map
    is an association list *)
Inductive pfield := PField (doc : str) (fields : option (list (str * pfield))).

(** PrettyConfig (ser/mod.rs:86-125); [p_depth_limit = None] is usize::MAX *)
Record pconf := PConf {
  p_depth_limit : option nat;
  p_new_line : str;
  p_indentor : str;
  p_separator : str;
  p_struct_names : bool;
  p_separate_tuple_members : bool;
  p_enumerate_arrays : bool;
  p_extensions : exts;
  p_compact_arrays : bool;
  p_escape_strings : bool;
  p_compact_structs : bool;
  p_compact_maps : bool;
  p_number_suffixes : bool;
  p_path_meta : option pfield;
  p_compact_ranges : bool;
}.

(** Default (ser/mod.rs:388-412, not on Windows) *)
Definition pconf_default : pconf :=
  PConf None [10] [32;32;32;32] [32] false false false exts_empty false true false false
        false None false.

(** ** State and outcomes

    Serializer (ser/mod.rs:418-427) with the writer: [w_out] is what the writer
    accepted so far, [w_cap] how many more bytes it accepts before it fails
    ([None]: never).  When it fails, [w_fail] holds the bytes it took of the
    text it failed at. *)
Record sst := SSt {
  w_out : str;
  w_cap : option nat;
  w_fail : option bytes;
  s_indent : nat;
  s_is_empty : option bool;
  s_nt : bool;
  s_lim : option nat;
  s_isd : nat;
  s_meta : option pfield;
}.

Definition sset_out o (s : sst) := SSt o (w_cap s) (w_fail s) (s_indent s) (s_is_empty s) (s_nt s) (s_lim s) (s_isd s) (s_meta s).
Definition sset_cap c (s : sst) := SSt (w_out s) c (w_fail s) (s_indent s) (s_is_empty s) (s_nt s) (s_lim s) (s_isd s) (s_meta s).
Definition sset_fail b (s : sst) := SSt (w_out s) (w_cap s) b (s_indent s) (s_is_empty s) (s_nt s) (s_lim s) (s_isd s) (s_meta s).
Definition sset_indent i (s : sst) := SSt (w_out s) (w_cap s) (w_fail s) i (s_is_empty s) (s_nt s) (s_lim s) (s_isd s) (s_meta s).
Definition sset_is_empty b (s : sst) := SSt (w_out s) (w_cap s) (w_fail s) (s_indent s) b (s_nt s) (s_lim s) (s_isd s) (s_meta s).
Definition sset_nt b (s : sst) := SSt (w_out s) (w_cap s) (w_fail s) (s_indent s) (s_is_empty s) b (s_lim s) (s_isd s) (s_meta s).
Definition sset_lim l (s : sst) := SSt (w_out s) (w_cap s) (w_fail s) (s_indent s) (s_is_empty s) (s_nt s) l (s_isd s) (s_meta s).
Definition sset_isd d (s : sst) := SSt (w_out s) (w_cap s) (w_fail s) (s_indent s) (s_is_empty s) (s_nt s) (s_lim s) d (s_meta s).
Definition sset_meta m (s : sst) := SSt (w_out s) (w_cap s) (w_fail s) (s_indent s) (s_is_empty s) (s_nt s) (s_lim s) (s_isd s) m.

Inductive sout (A : Type) :=
  | SOk (a : A) (s : sst)
  | SErr (e : err) (s : sst)
  | SPanic.
Arguments SOk {A} a s.
Arguments SErr {A} e s.
Arguments SPanic {A}.

Definition SM (A : Type) := sst -> sout A.
Definition sret {A} (a : A) : SM A := fun s => SOk a s.
Definition sfail {A} (e : err) : SM A := fun s => SErr e s.
Definition sbind {A B} (m : SM A) (k : A -> SM B) : SM B := fun s =>
  match m s with
  | SOk a s' => k a s'
  | SErr e s' => SErr e s'
  | SPanic => SPanic
  end.
Definition sget : SM sst := fun s => SOk s s.
Definition smod (f : sst -> sst) : SM unit := fun s => SOk tt (f s).

Declare Scope sm_scope.
Delimit Scope sm_scope with SM.
Notation "x <~ m ;; k" := (sbind m (fun x => k))
  (at level 61, m at next level, right associativity) : sm_scope.
Notation "m ;~ k" := (sbind m (fun _ => k))
  (at level 61, right associativity) : sm_scope.
Open Scope sm_scope.

(** fmt::Write::write_str / write_char / write! *)
Definition write (t : str) : SM unit := fun s =>
  match w_cap s with
  | None => SOk tt (sset_out (w_out s ++ t) s)
  | Some c =>
      let b := enc t in
      if Nat.leb (length b) c
      then SOk tt (sset_out (w_out s ++ t) (sset_cap (Some (c - length b)%nat) s))
      else SErr EFmt (sset_fail (Some (firstn c b)) (sset_cap (Some 0%nat) s))
  end.

Fixpoint swrite_n (n : nat) (t : str) : SM unit :=
  match n with O => sret tt | S n' => write t ;~ swrite_n n' t end.

(** guard_recursion! (ser/mod.rs:709-727); whether the limit is restored after
    an error is not observable *)
Definition sguard {A} (m : SM A) : SM A := fun s =>
  match s_lim s with
  | None => m s
  | Some O => SErr EExceededRecursionLimit s
  | Some (S l) =>
      match m (sset_lim (Some l) s) with
      | SOk a s' => SOk a (sset_lim (option_map S (s_lim s')) s')
      | r => r
      end
  end.

(** ** Literals *)

Definition s_Some_open := Eval vm_compute in lit "Some(".
Definition s_point_zero := Eval vm_compute in lit ".0".
Definition s_doc_prefix := Eval vm_compute in lit "/// ".
Definition s_enable_open := Eval vm_compute in lit "#![enable(".
Definition s_enable_close := Eval vm_compute in lit ")]".
Definition s_enum_open := Eval vm_compute in lit "/*[".
Definition s_enum_close := Eval vm_compute in lit "]*/ ".

(** the digits of a number, most significant first, lower case *)
Definition digit_char (d : N) : char := if d <? 10 then 48 + d else 87 + d.
Fixpoint digits (fuel : nat) (base n : N) (acc : str) : str :=
  match fuel with
  | O => acc
  | S f =>
      let acc := digit_char (n mod base) :: acc in
      if n <? base then acc else digits f base (n / base) acc
  end.
Definition show_N (n : N) : str := digits (S (N.size_nat n)) 10 n [].
Definition show_hex (n : N) : str := digits (S (N.size_nat n)) 16 n [].
(** Display for integers *)
Definition show_Z (z : Z) : str :=
  match z with
  | Z0 => [48]
  | Zpos p => show_N (Npos p)
  | Zneg p => c_minus :: show_N (Npos p)
  end.

(** core::ascii::escape_default *)
Definition ascii_escape_default (b : byte) : str :=
  if b =? 9 then [c_bs; 116]
  else if b =? 13 then [c_bs; 114]
  else if b =? 10 then [c_bs; 110]
  else if (b =? c_sq) || (b =? c_dq) || (b =? c_bs) then [c_bs; b]
  else if (32 <=? b) && (b <? 127) then [b]
  else [c_bs; 120; digit_char (b / 16); digit_char (b mod 16)].

(** the longest run of hashes (ser/mod.rs:598-603, 629-634) *)
Fixpoint max_hashes (count best : nat) (s : str) : nat :=
  match s with
  | [] => best
  | c :: s' => if c =? c_hash
               then max_hashes (S count) (Nat.max best (S count)) s'
               else max_hashes 0 best s'
  end.

(** str::lines (used at ser/mod.rs:1559): split at newlines, drop one carriage
    return before each, and no line after a final newline *)
Definition strip_cr (l : str) : str :=
  match rev l with
  | c :: r => if c =? 13 then rev r else l
  | [] => l
  end.
Fixpoint lines (s cur : str) : list str :=
  match s with
  | [] => match cur with [] => [] | _ => [rev cur] end
  | c :: s' => if c =? c_nl then strip_cr (rev cur) :: lines s' [] else lines s' (c :: cur)
  end.

(** the reserved names of write_identifier (ser/mod.rs:678-681) *)
Definition reserved : list str :=
  [s_true; s_false; s_Some; s_None; s_inf; s_inff32; s_inff64; s_NaN; s_NaNf32; s_NaNf64].

Section WithEnv.
Context {E : Env}.

(** char::escape_debug, with the tables of core as oracle *)
Definition escape_debug (c : char) : str :=
  if c =? 0 then [c_bs; 48]
  else if c =? 9 then [c_bs; 116]
  else if c =? 13 then [c_bs; 114]
  else if c =? 10 then [c_bs; 110]
  else if (c =? c_bs) || (c =? c_dq) || (c =? c_sq) then [c_bs; c]
  else if negb (grapheme_extended c) && printable c then [c]
  else [c_bs; 117; c_lc] ++ show_hex c ++ [c_rc].

Section Config.
Variable o : opts.
Variable cfg : option pconf.

Definition flag (f : pconf -> bool) (dflt : bool) : bool :=
  match cfg with Some p => f p | None => dflt end.

(** ser/mod.rs:491-545 *)
Definition separate_tuple_members := flag p_separate_tuple_members false.
Definition compact_arrays := flag p_compact_arrays false.
Definition compact_structs := flag p_compact_structs false.
Definition compact_maps := flag p_compact_maps false.
Definition number_suffixes := flag p_number_suffixes false.
Definition compact_ranges := flag p_compact_ranges false.
Definition escape_strings := flag p_escape_strings true.
Definition extensions : exts :=
  exts_or (o_exts o) (match cfg with Some p => p_extensions p | None => exts_empty end).
(** ser/mod.rs:699-706 *)
Definition struct_names : bool := x_explicit_struct_names extensions || flag p_struct_names false.

(** [pretty.indent <= config.depth_limit] *)
Definition within (p : pconf) (n : nat) : bool :=
  match p_depth_limit p with None => true | Some d => Nat.leb n d end.

(** start_indent (ser/mod.rs:547-559) *)
Definition start_indent : SM unit :=
  match cfg with
  | None => sret tt
  | Some p =>
      smod (fun s => sset_indent (S (s_indent s)) s) ;~
      s <~ sget ;;
      if within p (s_indent s) then
        match s_is_empty s with
        | Some true => sret tt
        | _ => write (p_new_line p)
        end
      else sret tt
  end.

(** indent (ser/mod.rs:429-436, 561-566) *)
Definition indent : SM unit :=
  match cfg with
  | None => sret tt
  | Some p =>
      s <~ sget ;;
      if within p (s_indent s) then swrite_n (s_indent s) (p_indentor p) else sret tt
  end.

(** end_indent (ser/mod.rs:568-584); [indent -= 1] panics at 0 *)
Definition end_indent : SM unit :=
  match cfg with
  | None => sret tt
  | Some p =>
      s <~ sget ;;
      (if within p (s_indent s) then
         match s_is_empty s with
         | Some true => sret tt
         | _ => swrite_n (s_indent s - 1) (p_indentor p)
         end
       else sret tt) ;~
      match s_indent s with
      | O => fun _ => SPanic
      | S i => smod (fun s => sset_is_empty None (sset_indent i s))
      end
  end.

(** serialize_escaped_str (ser/mod.rs:586-594) *)
Definition escaped_str (v : str) : SM unit :=
  write [c_dq] ;~ write (flat_map escape_debug v) ;~ write [c_dq].

(** serialize_unescaped_or_raw_str (ser/mod.rs:596-616) and the byte string
    variant (ser/mod.rs:627-647), which differs in the prefix *)
Definition unescaped_or_raw (prefix v : str) : SM unit :=
  if existsb (fun c => (c =? c_dq) || (c =? c_bs)) v then
    let hashes := repeat c_hash (S (max_hashes 0 0 v)) in
    write (prefix ++ [c_r]) ;~ write hashes ;~ write [c_dq] ;~ write v ;~
    write [c_dq] ;~ write hashes
  else
    write (prefix ++ [c_dq]) ;~ write v ;~ write [c_dq].

(** serialize_escaped_byte_str (ser/mod.rs:618-625) *)
Definition escaped_byte_str (v : bytes) : SM unit :=
  write s_bdq ;~ write (flat_map ascii_escape_default v) ;~ write [c_dq].

(** validate_identifier (ser/mod.rs:689-694) *)
Definition valid_identifier (name : str) : bool :=
  negb (is_nil name) && forallb is_ident_raw_char name.
Definition validate_identifier (name : str) : SM unit :=
  if valid_identifier name then sret tt else sfail (EInvalidIdentifier name).

(** write_identifier (ser/mod.rs:671-687) *)
Definition needs_raw (name : str) : bool :=
  match name with
  | [] => true
  | c :: r => negb (is_ident_first_char c) || negb (forallb xid_continue r)
              || existsb (str_eqb name) reserved
  end.
Definition write_identifier (name : str) : SM unit :=
  validate_identifier name ;~
  (if needs_raw name then write s_rh else sret tt) ;~
  write name.

(** serialize_sint / serialize_uint (ser/mod.rs:649-669) *)
Definition ser_int (k : ik) (z : Z) : SM unit :=
  if int_supported k then
    write (show_Z z) ;~
    if number_suffixes then write (ik_suffix k) else sret tt
  else sfail EMessage.

(** serialize_f32 / serialize_f64 (ser/mod.rs:787-825) *)
Definition ser_float (k : fk) (b : N) : SM unit :=
  (if f_is_nan k b && f_sign k b then write [c_minus] else sret tt) ;~
  write (f_show k b) ;~
  (if f_integral k b then write s_point_zero else sret tt) ;~
  if number_suffixes then write (match k with F32 => s_f32 | F64 => s_f64 end) else sret tt.

Definition ser_num (n : num) : SM unit :=
  match n with NInt k z => ser_int k z | NFloat k b => ser_float k b end.

(** serialize_char (ser/mod.rs:827-835) *)
Definition ser_char (c : char) : SM unit :=
  write [c_sq] ;~
  (if (c =? c_bs) || (c =? c_sq) then write [c_bs] else sret tt) ;~
  write [c] ;~ write [c_sq].

(** serialize_str (ser/mod.rs:837-845) *)
Definition ser_str (v : str) : SM unit :=
  if escape_strings then escaped_str v else unescaped_or_raw [] v.

(** serialize_bytes (ser/mod.rs:847-860) *)
Definition ser_bytes (v : bytes) : SM unit :=
  if negb escape_strings then
    match from_utf8 v with
    | Some t => unescaped_or_raw [c_b] t
    | None => escaped_byte_str v
    end
  else escaped_byte_str v.

(** serialize_none (ser/mod.rs:862-876) *)
Definition ser_none : SM unit :=
  s <~ sget ;;
  smod (sset_isd 0) ;~
  swrite_n (s_isd s) s_Some_open ;~
  write s_None ;~
  swrite_n (s_isd s) [c_rp].

(** serialize_some (ser/mod.rs:878-900) *)
Definition ser_some (v : SM unit) : SM unit :=
  if x_implicit_some extensions then
    smod (fun s => sset_isd (S (s_isd s)) s) ;~
    sguard v ;~
    smod (sset_isd 0)
  else
    smod (sset_nt (x_unwrap_variant_newtypes extensions)) ;~
    write s_Some_open ;~
    sguard v ;~
    write [c_rp] ;~
    smod (sset_nt false).

(** serialize_unit (ser/mod.rs:902-908) *)
Definition ser_unit : SM unit :=
  s <~ sget ;; if s_nt s then sret tt else write s_unit.

(** serialize_unit_struct (ser/mod.rs:910-924) *)
Definition ser_unit_struct (name : str) : SM unit :=
  if compact_ranges && str_eqb name s_RangeFull then write s_dotdot
  else
    s <~ sget ;;
    if struct_names && negb (s_nt s) then write_identifier name
    else validate_identifier name ;~ ser_unit.

(** serialize_unit_variant (ser/mod.rs:926-936) *)
Definition ser_unit_variant (name variant : str) : SM unit :=
  validate_identifier name ;~ write_identifier variant.

(** the raw value branch of serialize_newtype_struct (ser/mod.rs:942-957);
    raw::Serializer only accepts a string and writes it as it is
    (ser/raw.rs:102-105) *)
Definition ser_raw (v : str) : SM unit :=
  s <~ sget ;;
  smod (sset_isd 0) ;~
  swrite_n (s_isd s) s_Some_open ;~
  sguard (write v) ;~
  swrite_n (s_isd s) [c_rp].

(** serialize_newtype_struct (ser/mod.rs:959-980) *)
Definition ser_newtype (name : str) (v : SM unit) : SM unit :=
  s <~ sget ;;
  if x_unwrap_newtypes extensions || s_nt s then
    smod (sset_nt false) ;~
    validate_identifier name ;~
    sguard v
  else
    (if struct_names then write_identifier name else validate_identifier name) ;~
    smod (sset_isd 0) ;~
    write [c_lp] ;~
    sguard v ;~
    write [c_rp].

(** serialize_newtype_variant (ser/mod.rs:982-1007) *)
Definition ser_newtype_variant (name variant : str) (v : SM unit) : SM unit :=
  validate_identifier name ;~
  write_identifier variant ;~
  write [c_lp] ;~
  smod (fun s => sset_isd 0 (sset_nt (x_unwrap_variant_newtypes extensions) s)) ;~
  sguard v ;~
  smod (sset_nt false) ;~
  write [c_rp].

(** ** Compounds (ser/mod.rs:1174-1199) *)

(** Drop for Compound (ser/mod.rs:1240-1246) *)
Definition drop_compound : SM unit :=
  smod (fun s => sset_lim (option_map S (s_lim s)) s).

(** the separator before every element but the first; [wide] says whether this
    kind of compound is laid out over several lines *)
Definition separator (wide : pconf -> bool) : SM unit :=
  write [c_comma] ;~
  match cfg with
  | None => sret tt
  | Some p =>
      s <~ sget ;;
      if within p (s_indent s) && wide p then write (p_new_line p) else write (p_separator p)
  end.

(** the trailing comma (ser/mod.rs:1286-1293 and alike); [first] is
    [State::First] *)
Definition trailing (wide : pconf -> bool) (first : bool) : SM unit :=
  if first then sret tt
  else
    match cfg with
    | None => sret tt
    | Some p =>
        s <~ sget ;;
        if within p (s_indent s) && wide p
        then write [c_comma] ;~ write (p_new_line p) else sret tt
    end.

Definition open_wide (wide : bool) (len : nat) : SM unit :=
  if wide then
    smod (sset_is_empty (Some (Nat.eqb len 0))) ;~ start_indent
  else sret tt.
Definition close_wide (wide : bool) : SM unit := if wide then end_indent else sret tt.

Definition wide_seq (p : pconf) := negb (p_compact_arrays p).
Definition wide_tuple (p : pconf) := p_separate_tuple_members p.
Definition wide_map (p : pconf) := negb (p_compact_maps p).
Definition wide_struct (p : pconf) := negb (p_compact_structs p).

(** serialize_seq (ser/mod.rs:1009-1024); collections pass their length *)
Definition seq_open (len : nat) : SM unit :=
  smod (fun s => sset_isd 0 (sset_nt false s)) ;~
  write [c_lb] ;~
  open_wide (negb compact_arrays) len.

(** SerializeSeq::serialize_element (ser/mod.rs:1252-1283); the compound state
    is [(first, sequence_index)] *)
Definition seq_elem (c : bool * nat) (v : SM unit) : SM (bool * nat) :=
  let '(first, idx) := c in
  (if first then sret tt else separator wide_seq) ;~
  (if compact_arrays then sret tt else indent) ;~
  idx' <~ (match cfg with
           | None => sret idx
           | Some p =>
               s <~ sget ;;
               if within p (s_indent s) && p_enumerate_arrays p
               then write (s_enum_open ++ show_N (N.of_nat idx) ++ s_enum_close) ;~ sret (S idx)
               else sret idx
           end) ;;
  sguard v ;~
  sret (false, idx').

(** SerializeSeq::end (ser/mod.rs:1285-1302) *)
Definition seq_close (c : bool * nat) : SM unit :=
  trailing wide_seq (fst c) ;~
  close_wide (negb compact_arrays) ;~
  write [c_rb] ;~
  drop_compound.

(** serialize_tuple (ser/mod.rs:1026-1042); returns Compound::newtype_variant *)
Definition tuple_open (len : nat) : SM bool :=
  s <~ sget ;;
  smod (fun s => sset_isd 0 (sset_nt false s)) ;~
  (if s_nt s then sret tt else write [c_lp]) ;~
  open_wide separate_tuple_members len ;~
  sret (s_nt s).

(** serialize_tuple_struct (ser/mod.rs:1044-1056) *)
Definition tuple_struct_open (name : str) (len : nat) : SM bool :=
  s <~ sget ;;
  (if struct_names && negb (s_nt s) then write_identifier name else validate_identifier name) ;~
  tuple_open len.

(** serialize_tuple_variant (ser/mod.rs:1058-1079) *)
Definition tuple_variant_open (name variant : str) (len : nat) : SM bool :=
  smod (fun s => sset_isd 0 (sset_nt false s)) ;~
  validate_identifier name ;~
  write_identifier variant ;~
  write [c_lp] ;~
  open_wide separate_tuple_members len ;~
  sret false.

(** SerializeTuple::serialize_element (ser/mod.rs:1309-1334) *)
Definition tuple_elem (first : bool) (v : SM unit) : SM bool :=
  (if first then sret tt else separator wide_tuple) ;~
  (if separate_tuple_members then indent else sret tt) ;~
  sguard v ;~
  sret false.

(** SerializeTuple::end (ser/mod.rs:1335-1354) *)
Definition tuple_close (ntv first : bool) : SM unit :=
  trailing wide_tuple first ;~
  close_wide separate_tuple_members ;~
  (if ntv then sret tt else write [c_rp]) ;~
  drop_compound.

(** serialize_map (ser/mod.rs:1081-1096) *)
Definition map_open (len : nat) : SM unit :=
  smod (fun s => sset_isd 0 (sset_nt false s)) ;~
  write [c_lc] ;~
  open_wide (negb compact_maps) len.

(** SerializeMap::serialize_key and serialize_value (ser/mod.rs:1393-1432) *)
Definition map_entry (first : bool) (k v : SM unit) : SM bool :=
  (if first then sret tt else separator wide_map) ;~
  (if compact_maps then sret tt else indent) ;~
  sguard k ;~
  write [c_colon] ;~
  (match cfg with Some p => write (p_separator p) | None => sret tt end) ;~
  sguard v ;~
  sret false.

(** SerializeMap::end (ser/mod.rs:1433-1450) *)
Definition map_close (first : bool) : SM unit :=
  trailing wide_map first ;~
  close_wide (negb compact_maps) ;~
  write [c_rc] ;~
  drop_compound.

(** *** Structs *)

(** Fields::remove and Fields::insert (ser/path_meta.rs) *)
Fixpoint pf_remove (k : str) (l : list (str * pfield)) : list (str * pfield) :=
  match l with
  | [] => []
  | (k', f) :: l' => if str_eqb k k' then pf_remove k l' else (k', f) :: pf_remove k l'
  end.
Definition pf_insert (k : str) (f : pfield) (l : list (str * pfield)) :=
  (k, f) :: pf_remove k l.

(** the restore_field dance before (ser/mod.rs:1531-1538): returns the new
    path_meta and restore_field *)
Definition meta_enter (key : str) (m : option pfield) : option pfield * option pfield :=
  match m with
  | None => (None, None)
  | Some (PField d fs) =>
      match fs with
      | None => (None, Some (PField d None))
      | Some l => (assoc key l, Some (PField d (Some (pf_remove key l))))
      end
  end.
(** and after a field (ser/mod.rs:1578-1588) *)
Definition meta_leave (key : str) (inner restore : option pfield) : option pfield :=
  match restore with
  | Some (PField d (Some l)) =>
      match inner with
      | Some f => Some (PField d (Some (pf_insert key f l)))
      | None => restore
      end
  | _ => restore
  end.

Definition doc_lines : SM unit :=
  s <~ sget ;;
  match s_meta s with
  | None => sret tt
  | Some (PField d _) =>
      (fix go (ls : list str) : SM unit :=
         match ls with
         | [] => sret tt
         | l :: ls' =>
             write s_doc_prefix ;~ write l ;~ write [c_nl] ;~ indent ;~ go ls'
         end) (lines d [])
  end.

(** SerializeStruct::serialize_field outside of compact ranges
    (ser/mod.rs:1531-1591) *)
Definition struct_field (first : bool) (key : str) (v : SM unit) : SM bool :=
  s <~ sget ;;
  let '(inner, restore) :=
    match cfg with Some _ => meta_enter key (s_meta s) | None => (None, None) end in
  smod (sset_meta inner) ;~
  (if first then sret tt else separator wide_struct) ;~
  (if compact_structs then sret tt
   else match cfg with
        | None => sret tt
        | Some _ => indent ;~ doc_lines
        end) ;~
  write_identifier key ;~
  write [c_colon] ;~
  (match cfg with Some p => write (p_separator p) | None => sret tt end) ;~
  sguard v ;~
  smod (fun s => sset_meta (meta_leave key (s_meta s) restore) s) ;~
  sret false.

(** SerializeStruct::end outside of compact ranges (ser/mod.rs:1630-1648) *)
Definition struct_close (ntv first : bool) : SM unit :=
  trailing wide_struct first ;~
  close_wide (negb compact_structs) ;~
  (if ntv then sret tt else write [c_rp]) ;~
  drop_compound.

(** serialize_struct outside of compact ranges (ser/mod.rs:1121-1142) *)
Definition struct_open (name : str) (len : nat) : SM bool :=
  s <~ sget ;;
  smod (fun s => sset_isd 0 (sset_nt false s)) ;~
  (if s_nt s then validate_identifier name
   else (if struct_names then write_identifier name else validate_identifier name) ;~
        write [c_lp]) ;~
  open_wide (negb compact_structs) len ;~
  sret (s_nt s).

(** serialize_struct_variant (ser/mod.rs:1145-1166) *)
Definition struct_variant_open (name variant : str) (len : nat) : SM bool :=
  smod (fun s => sset_isd 0 (sset_nt false s)) ;~
  validate_identifier name ;~
  write_identifier variant ;~
  write [c_lp] ;~
  open_wide (negb compact_structs) len ;~
  sret false.

(** *** Compact ranges *)

(** RangeKind (ser/mod.rs:1204-1210) and its choice (ser/mod.rs:1100-1119) *)
Inductive range_kind := RKRange | RKInclusive | RKFrom | RKTo | RKToInclusive.
Definition range_kind_of (name : str) (len : nat) : option range_kind :=
  if compact_ranges then
    if Nat.eqb len 2 then
      if str_eqb name s_Range then Some RKRange
      else if str_eqb name s_RangeInclusive then Some RKInclusive else None
    else if Nat.eqb len 1 then
      if str_eqb name s_RangeFrom then Some RKFrom
      else if str_eqb name s_RangeTo then Some RKTo
      else if str_eqb name s_RangeToInclusive then Some RKToInclusive else None
    else None
  else None.

(** try_serialize_number (ser/mod.rs:1231-1237): NumberSerializer accepts
    numbers only (value/number.rs:391-539) *)
Definition as_number (v : val) : option num :=
  match v with
  | VInt k z => Some (NInt k z)
  | VFloat k b => Some (NFloat k b)
  | _ => None
  end.

(** the state of a range compound (ser/mod.rs:1212-1229): either still
    buffering numbers or fallen back, with [first] of the struct form *)
Inductive range_state :=
  | RBuf (a b : option (str * num))
  | RFall (first : bool).

(** the buffering part of serialize_field (ser/mod.rs:1462-1529) *)
Definition range_accepts (rk : range_kind) (a b : option (str * num)) (key : str) : bool :=
  let expected :=
    match rk, a with
    | (RKTo | RKToInclusive), None => s_end
    | (RKTo | RKToInclusive), Some _ => []
    | _, None => s_start
    | _, Some _ => s_end
    end in
  let max2 := match rk with RKRange | RKInclusive => true | _ => false end in
  str_eqb key expected
  && negb (match a with Some _ => negb max2 | None => false end)
  && negb (match b with Some _ => true | None => false end).

Definition replay (first : bool) (x : option (str * num)) : SM bool :=
  match x with
  | None => sret first
  | Some (k, n) => struct_field first k (ser_num n)
  end.

Definition range_field (rk : range_kind) (c : range_state) (key : str) (v : val) (m : SM unit)
  : SM range_state :=
  match c with
  | RFall first => f <~ struct_field first key m ;; sret (RFall f)
  | RBuf a b =>
      let fall :=
        write [c_lp] ;~
        (if compact_structs then sret tt
         else smod (sset_is_empty (Some false)) ;~ start_indent) ;~
        f <~ replay true a ;;
        f <~ replay f b ;;
        f <~ struct_field f key m ;;
        sret (RFall f) in
      match as_number v with
      | Some n =>
          if range_accepts rk a b key then
            sret (match a with
                  | None => RBuf (Some (key, n)) b
                  | Some _ => RBuf a (Some (key, n))
                  end)
          else fall
      | None => fall
      end
  end.

(** end of a range compound (ser/mod.rs:1593-1628) *)
Definition write_buffered (x : option (str * num)) : SM unit :=
  match x with Some (_, n) => ser_num n | None => sret tt end.
Definition range_close (rk : range_kind) (c : range_state) : SM unit :=
  match c with
  | RFall first => struct_close false first
  | RBuf a b =>
      match rk with
      | RKFrom => write_buffered a ;~ write s_dotdot
      | RKTo => write s_dotdot ;~ write_buffered a
      | RKToInclusive => write s_dotdoteq ;~ write_buffered a
      | RKRange => write_buffered a ;~ write s_dotdot ;~ write_buffered b
      | RKInclusive => write_buffered a ;~ write s_dotdoteq ;~ write_buffered b
      end ;~
      drop_compound
  end.

(** ** The traversal: what derived [Serialize] implementations call *)

Fixpoint ser (v : val) : SM unit :=
  match v with
  | VBool b => write (if b then s_true else s_false)
  | VInt k z => ser_int k z
  | VFloat k b => ser_float k b
  | VChar c => ser_char c
  | VStr s => ser_str s
  | VBytes b => ser_bytes b
  | VUnit => ser_unit
  | VUnitStruct name => ser_unit_struct name
  | VNone => ser_none
  | VSome v => ser_some (ser v)
  | VNewtype name v => ser_newtype name (ser v)
  | VSeq vs =>
      seq_open (length vs) ;~
      c <~ (fix go (vs : list val) (c : bool * nat) : SM (bool * nat) :=
              match vs with
              | [] => sret c
              | v :: vs' => c' <~ seq_elem c (ser v) ;; go vs' c'
              end) vs (true, 0%nat) ;;
      seq_close c
  | VTuple vs =>
      ntv <~ tuple_open (length vs) ;;
      f <~ (fix go (vs : list val) (c : bool) : SM bool :=
              match vs with
              | [] => sret c
              | v :: vs' => c' <~ tuple_elem c (ser v) ;; go vs' c'
              end) vs true ;;
      tuple_close ntv f
  | VTupleStruct name vs =>
      ntv <~ tuple_struct_open name (length vs) ;;
      f <~ (fix go (vs : list val) (c : bool) : SM bool :=
              match vs with
              | [] => sret c
              | v :: vs' => c' <~ tuple_elem c (ser v) ;; go vs' c'
              end) vs true ;;
      tuple_close ntv f
  | VMap es =>
      map_open (length es) ;~
      f <~ (fix go (es : list (val * val)) (c : bool) : SM bool :=
              match es with
              | [] => sret c
              | (k, v) :: es' => c' <~ map_entry c (ser k) (ser v) ;; go es' c'
              end) es true ;;
      map_close f
  | VStruct name fs =>
      match range_kind_of name (length fs) with
      | Some rk =>
          smod (fun s => sset_isd 0 (sset_nt false s)) ;~
          c <~ (fix go (fs : list (str * val)) (c : range_state) : SM range_state :=
                  match fs with
                  | [] => sret c
                  | (k, v) :: fs' => c' <~ range_field rk c k v (ser v) ;; go fs' c'
                  end) fs (RBuf None None) ;;
          range_close rk c
      | None =>
          ntv <~ struct_open name (length fs) ;;
          f <~ (fix go (fs : list (str * val)) (c : bool) : SM bool :=
                  match fs with
                  | [] => sret c
                  | (k, v) :: fs' => c' <~ struct_field c k (ser v) ;; go fs' c'
                  end) fs true ;;
          struct_close ntv f
      end
  | VUnitVariant name variant => ser_unit_variant name variant
  | VNewVariant name variant v => ser_newtype_variant name variant (ser v)
  | VTupVariant name variant vs =>
      ntv <~ tuple_variant_open name variant (length vs) ;;
      f <~ (fix go (vs : list val) (c : bool) : SM bool :=
              match vs with
              | [] => sret c
              | v :: vs' => c' <~ tuple_elem c (ser v) ;; go vs' c'
              end) vs true ;;
      tuple_close ntv f
  | VStructVariant name variant fs =>
      ntv <~ struct_variant_open name variant (length fs) ;;
      f <~ (fix go (fs : list (str * val)) (c : bool) : SM bool :=
              match fs with
              | [] => sret c
              | (k, v) :: fs' => c' <~ struct_field c k (ser v) ;; go fs' c'
              end) fs true ;;
      struct_close ntv f
  | VRaw s => ser_raw s
  | VIgnored => ser_unit   (* serde's IgnoredAny serializes as a unit *)
  end.

(** ** with_options (ser/mod.rs:451-488) *)

Definition ext_names (e : exts) : list str :=
  (if x_unwrap_newtypes e then [s_unwrap_newtypes] else [])
  ++ (if x_implicit_some e then [s_implicit_some] else [])
  ++ (if x_unwrap_variant_newtypes e then [s_unwrap_variant_newtypes] else [])
  ++ (if x_explicit_struct_names e then [s_explicit_struct_names] else []).

Fixpoint write_headers (p : pconf) (names : list str) : SM unit :=
  match names with
  | [] => sret tt
  | n :: ns =>
      write (s_enable_open ++ n ++ s_enable_close) ;~
      write (p_new_line p) ;~
      write_headers p ns
  end.

Definition ser_new : SM unit :=
  match cfg with
  | None => sret tt
  | Some p =>
      if negb (forallb is_ws_char (p_new_line p)) then sfail EMessage
      else if negb (forallb is_ws_char (p_indentor p)) then sfail EMessage
      else if negb (forallb is_ws_char (p_separator p)) then sfail EMessage
      else write_headers p (ext_names (exts_minus (p_extensions p) (o_exts o)))
  end.

(** the serializer just after construction, on a writer accepting [cap]
    bytes *)
Definition ser_init (cap : option nat) : sst :=
  SSt [] cap None 0 None false (o_limit o) 0
      (match cfg with Some p => p_path_meta p | None => None end).

(** to_writer / to_writer_pretty (options.rs:205-224) *)
Definition to_writer (cap : option nat) (v : val) : sout unit :=
  (ser_new ;~ ser v) (ser_init cap).

(** to_string / to_string_pretty (options.rs:266-291) *)
Definition to_string (v : val) : str + err :=
  match to_writer None v with
  | SOk _ s => inl (w_out s)
  | SErr e _ => inr e
  | SPanic => inr EFmt
  end.

(** to_io_writer / to_io_writer_pretty (options.rs:226-262) on a writer that
    accepts [cap] bytes and then fails: what it accepted, and the result; the
    adapter (options.rs:297-313) keeps the error of the writer *)
Definition to_io_writer (cap : nat) (v : val) : bytes * option (unit + err) :=
  match to_writer (Some cap) v with
  | SOk _ s => (enc (w_out s), Some (inl tt))
  | SErr e s =>
      match w_fail s with
      | Some b => (enc (w_out s) ++ b, Some (inr EIo))
      | None => (enc (w_out s), Some (inr e))
      end
  | SPanic => ([], None)
  end.

End Config.
End WithEnv.
