(** Model of error positions, error.rs:295-319, and of the results of the
    public entry points. *)
From Coq Require Import NArith ZArith Bool List.
From Verif Require Import Base Value Data Parse De.
Import ListNotations.
Open Scope N_scope.
Open Scope list_scope.

(** Position (error.rs:295-299); usize overflow is not modelled *)
Record position := Pos { line : nat; col : nat }.

(** Position::from_src_end (error.rs:302-308) *)
Definition from_src_end (src : str) : position :=
  Pos (1 + length (filter (fun c => c =? c_nl) src))
      (1 + length (takewhile (fun c => negb (c =? c_nl)) (rev src))).

(** Span (error.rs:317-324): start and end *)
Definition span : Type := (position * position)%type.

(** [&src[..cursor]] for a cursor given as the suffix it leaves; [None] is the
    panic of slicing *)
Definition upto (text suffix : str) : option str :=
  if Nat.leb (blen suffix) (blen text) then btake (blen text - blen suffix) text else None.

(** span_error (parse.rs:137-145) *)
Definition span_error (text : str) (s : st) : option span :=
  match upto text (prev s), upto text (rest s) with
  | Some a, Some b => Some (from_src_end a, from_src_end b)
  | _, _ => None
  end.

(** SpannedResult: what the public functions return *)
Inductive result (A : Type) :=
  | RValue (a : A)
  | RError (e : err) (where_ : span)
  | RPanic
  | RDiverges.
Arguments RValue {A} a.
Arguments RError {A} e where_.
Arguments RPanic {A}.
Arguments RDiverges {A}.

Definition spanned {A} (text : str) (r : out A) : result A :=
  match r with
  | Ok a _ => RValue a
  | Err e s => match span_error text s with Some sp => RError e sp | None => RPanic end
  | Panic => RPanic
  | OutOfFuel => RDiverges
  end.

Section WithEnv.
Context {E : Env}.

(** Options::from_str_seed (options.rs:170-184) *)
Definition options_from_str {A} (o : opts) (m : M A) (text : str) : result A :=
  spanned text (from_str o m text).

(** Options::from_bytes_seed (options.rs:188-201) with
    from_bytes_with_options (de/mod.rs:71-94) *)
Definition options_from_bytes {A} (o : opts) (m : M A) (bs : bytes) : result A :=
  match dec_prefix bs with
  | (text, []) => options_from_str o m text
  | (text, _) => RError EUtf8Error (Pos 1 1, from_src_end text)
  end.

(** Options::from_reader_seed (options.rs:136-165): a reader delivers bytes and
    then ends or fails *)
Definition options_from_reader {A} (o : opts) (m : M A) (bs : bytes) (io_failed : bool) : result A :=
  if io_failed then RError EIo (Pos 1 1, from_src_end (fst (dec_prefix bs)))
  else options_from_bytes o m bs.

End WithEnv.
