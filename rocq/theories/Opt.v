(** Model of the Options builder, options.rs:67-97. *)
From Coq Require Import NArith ZArith Bool List.
From Verif Require Import Base Parse De.
Import ListNotations.

(** with_default_extension (options.rs:68-73), [|=] *)
Definition with_default_extension (e : exts) (o : opts) : opts := Opts (exts_or (o_exts o) e) (o_limit o).
(** without_default_extension (options.rs:75-80), [&= !] *)
Definition without_default_extension (e : exts) (o : opts) : opts := Opts (exts_minus (o_exts o) e) (o_limit o).
(** with_recursion_limit (options.rs:82-87) *)
Definition with_recursion_limit (n : nat) (o : opts) : opts := Opts (o_exts o) (Some n).
(** without_recursion_limit (options.rs:89-97) *)
Definition without_recursion_limit (o : opts) : opts := Opts (o_exts o) None.

(** a chain of builder calls *)
Inductive call := CWith (e : exts) | CWithout (e : exts) | CLimit (n : nat) | CNoLimit.
Definition apply_call (o : opts) (c : call) : opts :=
  match c with
  | CWith e => with_default_extension e o
  | CWithout e => without_default_extension e o
  | CLimit n => with_recursion_limit n o
  | CNoLimit => without_recursion_limit o
  end.
Definition build (calls : list call) : opts := fold_left apply_call calls opts_default.
