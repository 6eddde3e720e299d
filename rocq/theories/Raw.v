(** RawValue (src/value/raw.rs): the constructors and [trim].

    A RawValue is its text; [from_boxed_ron] (raw.rs:121-126), [trim_boxed]
    (raw.rs:148-160), [ToOwned] and the conversions to [Box<str>] do the same
    to the boxed text and are not modelled separately.  Reading one out of a
    document is [De.de_raw], writing one is [Ser.ser_raw]. *)
From Coq Require Import String Ascii NArith ZArith Lia Bool List.
From Verif Require Import Base Value Data Parse De Span Ser.
Import ListNotations.
Open Scope N_scope.
Open Scope list_scope.
Open Scope m_scope.

Section WithEnv.
Context {E : Env}.

(** Deserializer::from_str (de/mod.rs:37-39, 55-67) *)
Definition deserializer_new : M unit :=
  parser_new ;;;
  modify (fun s => set_lim (o_limit opts_default) (set_ext (exts_or (ext s) (o_exts opts_default)) s)).

(** RawValue::from_ron (raw.rs:102-117): the text of the raw value *)
Definition raw_from_ron (ron : str) : result str :=
  spanned ron
    ((deserializer_new ;;;
      s <- get ;;
      if negb (exts_is_empty (ext s)) then fail EMessage
      else de_raw ;;; de_end ;;; ret ron) (init_state ron)).

(** RawValue::trim_range (raw.rs:43-60): the bytes before the value and the
    bytes up to its end *)
Definition trim_range (ron : str) : M (nat * nat) :=
  deserializer_new ;;;
  skip_ws ;;;
  a <- src ;;
  any_value ;;;
  skip_ws ;;;
  b <- pre_ws_src ;;
  if Nat.leb (blen a) (blen ron) && Nat.leb (blen b) (blen ron)
  then ret ((blen ron - blen a)%nat, (blen ron - blen b)%nat)
  else panic.

(** RawValue::trim (raw.rs:139-143); [None] is a panic of [expect] or of the
    slicing *)
Definition raw_trim (ron : str) : option str :=
  match trim_range ron (init_state ron) with
  | Ok (i, j) _ =>
      if Nat.leb i j then
        match btake j ron with
        | Some t => bdrop i t
        | None => None
        end
      else None
  | _ => None
  end.

(** RawValue::into_rust (raw.rs:128-131) and RawValue::from_rust
    (raw.rs:133-138) *)
Definition raw_into_rust {A} (m : M A) (ron : str) : result A := options_from_str opts_default m ron.
Definition raw_from_rust (v : val) : str + err := to_string opts_default None v.
End WithEnv.
