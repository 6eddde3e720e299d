(** C07, C08: whitespace and comments. *)
From Coq Require Import String Ascii NArith ZArith Lia Bool List.
From Verif Require Import Base Facts Value Data Parse De Span Wp EnvOk LexSafe DeSafe Fuel Toy Layout LexWs DocSafe.
Import ListNotations.
Open Scope N_scope.
Open Scope list_scope.
Open Scope m_scope.

(** ** C07 *)

(** [solid r]: [r] is empty or begins with neither whitespace nor a slash *)
Theorem C07_layout_skipped : forall {E : Env} text s w r,
  inv text s -> rest s = w ++ r -> layout w -> solid r ->
  exists s', skip_ws s = Ok tt s' /\ rest s' = r.
Proof. exact (fun E => skip_ws_layout). Qed.
Print Assumptions C07_layout_skipped.

(** at the end of the document the newline of a line comment may be missing *)
Theorem C07_final_layout_skipped : forall {E : Env} text s,
  inv text s -> final_layout (rest s) -> exists s', skip_ws s = Ok tt s' /\ rest s' = [].
Proof. exact (fun E => skip_ws_final). Qed.
Print Assumptions C07_final_layout_skipped.

Theorem C07_only_layout_skipped : forall {E : Env} s s',
  skip_ws s = Ok tt s' ->
  exists w, rest s = w ++ rest s' /\
    ((layout w /\ solid (rest s')) \/ (rest s' = [] /\ final_layout w)).
Proof. exact (fun E => skip_ws_sound). Qed.
Print Assumptions C07_only_layout_skipped.

Definition ws_sample : str := lit " /* a /* b */ */" ++ [c_nl; 8232] ++ lit "// c" ++ [c_nl].
(** the whitespace characters are those of the grammar (docs/grammar.md) *)
Theorem C07_whitespace : forall c, is_ws_char c = true <->
  In c [9; 10; 11; 12; 13; 32; 133; 8206; 8207; 8232; 8233].
Proof. intros c. unfold is_ws_char. cbn. lia. Qed.
Print Assumptions C07_whitespace.
Example C07_example : layout ws_sample /\ solid (lit "x").
Proof.
  split; [|split; [reflexivity|discriminate]].
  apply l_ws; [reflexivity|].
  apply (l_block (lit " a /* b */ */") ([c_nl; 8232] ++ lit "// c" ++ [c_nl])).
  - do 3 (apply cb_char; [|reflexivity|reflexivity]).
    apply (cb_nest (lit " b */") (lit " */")); repeat (apply cb_char; [|reflexivity|reflexivity]); apply cb_close.
  - do 2 (apply l_ws; [reflexivity|]). apply (l_line (lit " c") []); [|constructor].
    repeat constructor; discriminate.
Qed.
Example C07_example_run : exists s,
  @skip_ws (init_state (ws_sample ++ lit "x")) = Ok tt s /\ rest s = lit "x".
Proof. eexists. split; vm_compute; reflexivity. Qed.

(** ** C08 *)

(** [unclosed b]: no prefix of [b] closes the comment *)
Theorem C08_unclosed_before_value : forall {E : Env} {X : XidOk E} A (m : M A) o w b,
  layout w -> (forall p q, b = p ++ q -> ~ comment_body p) ->
  exists sp, options_from_str o m (w ++ lit "/*" ++ b) = RError EUnclosedBlockComment sp.
Proof. exact (fun E X A m o w b => document_start_unclosed o m w b). Qed.
Print Assumptions C08_unclosed_before_value.

Theorem C08_unclosed_after_value : forall {E : Env} {X : XidOk E} tenv f t o text v s w b,
  head o (de_ty tenv f t) (init_state text) = Ok v s ->
  rest s = w ++ lit "/*" ++ b ->
  layout w -> (forall p q, b = p ++ q -> ~ comment_body p) ->
  exists sp, options_from_str o (de_ty tenv f t) text = RError EUnclosedBlockComment sp.
Proof. exact (fun E X => typed_end_unclosed). Qed.
Print Assumptions C08_unclosed_after_value.

(** at every other place: wherever the parser skips whitespace *)
Theorem C08_unclosed_anywhere : forall {E : Env} text s w b,
  inv text s -> layout w -> rest s = w ++ lit "/*" ++ b ->
  (forall p q, b = p ++ q -> ~ comment_body p) ->
  exists s', skip_ws s = Err EUnclosedBlockComment s'.
Proof. exact (fun E => skip_ws_unclosed). Qed.
Print Assumptions C08_unclosed_anywhere.

Lemma comment_body_end b : comment_body b -> exists a, b = a ++ lit "*/".
Proof.
  induction 1 as [|a b _ _ _ [x ->]|c b _ [x ->]].
  - now exists [].
  - exists (c_slash :: c_star :: a ++ x). cbn. now rewrite <- app_assoc.
  - now exists (c :: x).
Qed.
Lemma find_str_absent p a r : find_str p (a ++ p ++ r) <> None.
Proof.
  induction a as [|c a IH]; cbn [app].
  - destruct (p ++ r) eqn:Q; cbn [find_str].
    + apply app_eq_nil in Q as [-> ->]. discriminate.
    + rewrite <- Q, starts_with_app. discriminate.
  - cbn [find_str]. destruct (starts_with _ _); [discriminate|].
    destruct (find_str p (a ++ p ++ r)) as [[]|]; [discriminate|contradiction].
Qed.
Example C08_example : forall p q, lit "a /* b" = p ++ q -> ~ comment_body p.
Proof.
  intros p q H B. apply comment_body_end in B as [x ->]. rewrite <- app_assoc in H.
  apply (find_str_absent (lit "*/") x q). rewrite <- H. reflexivity.
Qed.
Example C08_example_run : exists sp,
  @options_from_str Toy _ opts_default (@any_value Toy) (lit "[1, 2] /* /* */") = RError EUnclosedBlockComment sp.
Proof. eexists. vm_compute. reflexivity. Qed.
