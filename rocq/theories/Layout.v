(** Specification of layout: whitespace and comments, independent of the
    parser.  (docs/grammar.md: ws, ws_single, comment) *)
From Coq Require Import NArith ZArith Bool List.
From Verif Require Import Base Parse.
Import ListNotations.
Open Scope N_scope.
Open Scope list_scope.

(** the text after an opening [/*] up to and including the matching [*/]; block
    comments nest *)
Inductive comment_body : str -> Prop :=
  | cb_close : comment_body [c_star; c_slash]
  | cb_nest a b : comment_body a -> comment_body b ->
      comment_body (c_slash :: c_star :: a ++ b)
  | cb_char c b : comment_body b ->
      starts_with [c_slash; c_star] (c :: b) = false ->
      starts_with [c_star; c_slash] (c :: b) = false ->
      comment_body (c :: b).

Definition no_newline (t : str) : Prop := Forall (fun c => c <> c_nl) t.

Inductive layout : str -> Prop :=
  | l_nil : layout []
  | l_ws c w : is_ws_char c = true -> layout w -> layout (c :: w)
  | l_line t w : no_newline t -> layout w ->
      layout (c_slash :: c_slash :: t ++ c_nl :: w)
  | l_block b w : comment_body b -> layout w ->
      layout (c_slash :: c_star :: b ++ w).

(** layout at the very end of a document, where a line comment may lack its
    newline *)
Definition final_layout (w : str) : Prop :=
  layout w \/ exists w' t, layout w' /\ no_newline t /\ w = w' ++ c_slash :: c_slash :: t.

(** a text at which no layout can begin *)
Definition solid (r : str) : Prop :=
  match r with [] => True | c :: _ => is_ws_char c = false /\ c <> c_slash end.

Lemma layout_app a b : layout a -> layout b -> layout (a ++ b).
Proof.
  induction 1; intros L; cbn; auto.
  - apply l_ws; auto.
  - rewrite <- app_assoc. cbn. apply l_line; auto.
  - rewrite <- app_assoc. apply l_block; auto.
Qed.
Lemma layout_spaces a : Forall (fun c => is_ws_char c = true) a -> layout a.
Proof. induction 1; now constructor. Qed.
Lemma comment_body_len b : comment_body b -> (2 <= length b)%nat.
Proof.
  induction 1; cbn; rewrite ?app_length; auto with arith.
Qed.
