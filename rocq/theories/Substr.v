(** Model of util/span_substring.rs: selecting the text of an error's span.

    The grapheme clusters of the text ([s.graphemes(true)], from the crate
    unicode-segmentation) are an argument; their concatenation is the text. *)
From Coq Require Import NArith Bool List.
From Verif Require Import Base Span.
Import ListNotations.
Open Scope N_scope.
Open Scope list_scope.

Definition pos_eqb (p q : position) : bool := Nat.eqb (line p) (line q) && Nat.eqb (col p) (col q).

(** [matches!(ch, "\n" | "\r\n")] (util/span_substring.rs:33) *)
Definition is_newline (g : str) : bool := str_eqb g [10] || str_eqb g [13; 10].

(** the loop and the check after it (util/span_substring.rs:27-48) *)
Fixpoint grapheme_walk (p : position) (gs : list str) (line_no col_no i : nat) : option nat :=
  if pos_eqb (Pos line_no col_no) p then Some i
  else match gs with
       | [] => None
       | ch :: gs' =>
           if is_newline ch then grapheme_walk p gs' (S line_no) 1 (S i)
           else grapheme_walk p gs' line_no (S col_no) (S i)
       end.

(** Position::grapheme_index (util/span_substring.rs:11-49) *)
Definition grapheme_index (p : position) (gs : list str) : option nat :=
  if pos_eqb p (Pos 1 1) then Some 0%nat else grapheme_walk p gs 1 1 0.

(** the outcome: [Some], [None], or the panic of slicing *)
Inductive selected := Selected (t : str) | OutOfBounds | SlicePanic.

(** [collect::<Vec<&str>>()[start..end].concat()] *)
Definition slice_concat (start stop : nat) (gs : list str) : selected :=
  if Nat.leb start stop && Nat.leb stop (length gs)
  then Selected (concat (firstn (stop - start) (skipn start gs))) else SlicePanic.

(** Span::substring_exclusive (util/span_substring.rs:56-66) *)
Definition substring_exclusive (sp : span) (gs : list str) : selected :=
  match grapheme_index (fst sp) gs, grapheme_index (snd sp) gs with
  | Some i, Some j => slice_concat i j gs
  | _, _ => OutOfBounds
  end.
(** Span::substring_inclusive (util/span_substring.rs:71-81) *)
Definition substring_inclusive (sp : span) (gs : list str) : selected :=
  match grapheme_index (fst sp) gs, grapheme_index (snd sp) gs with
  | Some i, Some j => slice_concat i (S j) gs
  | _, _ => OutOfBounds
  end.
