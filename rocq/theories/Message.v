(** Model of how errors are displayed, error.rs:116-290, 310-337, 455-505: the
    parts that are made of names, alternatives, lengths and positions.

    [err] has no lists of alternatives, so the messages that show them take
    them as arguments.  [debug] is core's {:?} of a string. *)
From Coq Require Import String NArith ZArith Bool List.
From Verif Require Import Base Facts Value Data Parse De Span Ser.
Import ListNotations.
Open Scope N_scope.
Open Scope list_scope.

Section Display.
Context {E : Env}.
Variable debug : str -> str.
Definition c_bq : char := 96.

(** Identifier (error.rs:488-505) *)
Definition s_invalid : str := Eval vm_compute in lit "_[invalid identifier]".
Definition show_ident (name : str) : str :=
  if is_nil name || negb (forallb is_ident_raw_char name) then debug name ++ s_invalid
  else if match name with [] => true | c :: r => negb (is_ident_first_char c) || negb (forallb xid_continue r) end
  then c_bq :: s_rh ++ name ++ [c_bq]
  else c_bq :: name ++ [c_bq].

(** OneOf (error.rs:457-486); [none] is "variants" or "fields" *)
Definition s_there_are_no : str := Eval vm_compute in lit "there are no ".
Definition s_expected : str := Eval vm_compute in lit "expected ".
Definition s_either : str := Eval vm_compute in lit "expected either ".
Definition s_one_of : str := Eval vm_compute in lit "expected one of ".
Definition s_or : str := Eval vm_compute in lit " or ".
Definition s_comma : str := Eval vm_compute in lit ", ".
Definition s_comma_or : str := Eval vm_compute in lit ", or ".
Definition s_instead : str := Eval vm_compute in lit " instead".
Fixpoint show_last (l : list str) (an : str) : str :=
  match l with
  | [] => s_comma_or ++ show_ident an ++ s_instead
  | a :: l' => s_comma ++ show_ident an ++ show_last l' a
  end.
Definition one_of (none : str) (alts : list str) : str :=
  match alts with
  | [] => s_there_are_no ++ none
  | [a1] => s_expected ++ show_ident a1 ++ s_instead
  | [a1; a2] => s_either ++ show_ident a1 ++ s_or ++ show_ident a2 ++ s_instead
  | a1 :: a2 :: l => s_one_of ++ show_ident a1 ++ show_last l a2
  end.

(** Display for Error (error.rs:218-270) *)
Definition s_unexpected : str := Eval vm_compute in lit "Unexpected ".
Definition s_enum_ : str := Eval vm_compute in lit "enum ".
Definition s_variant_named : str := Eval vm_compute in lit "variant named ".
Definition s_in_enum : str := Eval vm_compute in lit " in enum ".
Definition s_variants : str := Eval vm_compute in lit "variants".
Definition s_field_named : str := Eval vm_compute in lit "field named ".
Definition s_in : str := Eval vm_compute in lit " in ".
Definition s_fields : str := Eval vm_compute in lit "fields".
Definition s_missing : str := Eval vm_compute in lit "missing ".
Definition s_duplicate : str := Eval vm_compute in lit "duplicate ".
Definition in_outer (word : str) (outer : option str) : str :=
  match outer with Some o => word ++ show_ident o | None => [] end.
Definition no_such_variant (expected : list str) (found : str) (outer : option str) : str :=
  s_unexpected ++ (match outer with None => s_enum_ | Some _ => [] end) ++ s_variant_named ++ show_ident found ++
  in_outer s_in_enum outer ++ s_comma ++ one_of s_variants expected.
Definition no_such_field (expected : list str) (found : str) (outer : option str) : str :=
  s_unexpected ++ s_field_named ++ show_ident found ++ in_outer s_in outer ++ s_comma ++ one_of s_fields expected.
Definition missing_field (field : str) (outer : option str) : str :=
  s_unexpected ++ s_missing ++ s_field_named ++ show_ident field ++ in_outer s_in outer.
Definition duplicate_field (field : str) (outer : option str) : str :=
  s_unexpected ++ s_duplicate ++ s_field_named ++ show_ident field ++ in_outer s_in outer.
End Display.

(** Display for Position (error.rs:310-314) *)
Definition show_nat (n : nat) : str := show_N (N.of_nat n).
Definition show_position (p : position) : str := show_nat (line p) ++ c_colon :: show_nat (col p).
(** Display for Span (error.rs:326-334) *)
Definition position_eqb (p q : position) : bool := Nat.eqb (line p) (line q) && Nat.eqb (col p) (col q).
Definition show_span (s : span) : str :=
  if position_eqb (fst s) (snd s) then show_position (fst s)
  else show_position (fst s) ++ c_minus :: show_position (snd s).
(** Display for SpannedError (error.rs:116-120) *)
Definition show_spanned (s : span) (message : str) : str := show_span s ++ c_colon :: 32 :: message.
