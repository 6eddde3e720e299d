(** ser/mod.rs:127-385: the methods of PrettyConfig, each a call that returns
    the configuration with one field set. *)
From Coq Require Import List Bool.
From Verif Require Import Base Value Data De Ser.
Import ListNotations.
Open Scope list_scope.

Inductive call :=
  | SetDepth (n : option nat)      (* depth_limit; [None] is usize::MAX *)
  | SetNewLine (s : str)           (* new_line *)
  | SetIndentor (s : str)          (* indentor *)
  | SetSeparator (s : str)         (* separator *)
  | SetStructNames (b : bool)      (* struct_names *)
  | SetTuples (b : bool)           (* separate_tuple_members *)
  | SetEnumerate (b : bool)        (* enumerate_arrays *)
  | SetCompactArrays (b : bool)    (* compact_arrays *)
  | SetExtensions (e : exts)       (* extensions *)
  | SetEscape (b : bool)           (* escape_strings *)
  | SetCompactStructs (b : bool)   (* compact_structs *)
  | SetCompactMaps (b : bool)      (* compact_maps *)
  | SetSuffixes (b : bool)         (* number_suffixes *)
  | SetCompactRanges (b : bool).   (* compact_ranges *)

Definition apply_call (c : call) (p : pconf) : pconf :=
  let '(PConf dl nl ind sep sn tm en ex ca es cs cm ns pm cr) := p in
  match c with
  | SetDepth x => PConf x nl ind sep sn tm en ex ca es cs cm ns pm cr          (* ser/mod.rs:141 *)
  | SetNewLine x => PConf dl x ind sep sn tm en ex ca es cs cm ns pm cr        (* ser/mod.rs:151 *)
  | SetIndentor x => PConf dl nl x sep sn tm en ex ca es cs cm ns pm cr        (* ser/mod.rs:161 *)
  | SetSeparator x => PConf dl nl ind x sn tm en ex ca es cs cm ns pm cr       (* ser/mod.rs:171 *)
  | SetStructNames x => PConf dl nl ind sep x tm en ex ca es cs cm ns pm cr    (* ser/mod.rs:183 *)
  | SetTuples x => PConf dl nl ind sep sn x en ex ca es cs cm ns pm cr         (* ser/mod.rs:196 *)
  | SetEnumerate x => PConf dl nl ind sep sn tm x ex ca es cs cm ns pm cr      (* ser/mod.rs:207 *)
  | SetCompactArrays x => PConf dl nl ind sep sn tm en ex x es cs cm ns pm cr  (* ser/mod.rs:232 *)
  | SetExtensions x => PConf dl nl ind sep sn tm en x ca es cs cm ns pm cr     (* ser/mod.rs:242 *)
  | SetEscape x => PConf dl nl ind sep sn tm en ex ca x cs cm ns pm cr         (* ser/mod.rs:265 *)
  | SetCompactStructs x => PConf dl nl ind sep sn tm en ex ca es x cm ns pm cr (* ser/mod.rs:290 *)
  | SetCompactMaps x => PConf dl nl ind sep sn tm en ex ca es cs x ns pm cr    (* ser/mod.rs:316 *)
  | SetSuffixes x => PConf dl nl ind sep sn tm en ex ca es cs cm x pm cr       (* ser/mod.rs:348 *)
  | SetCompactRanges x => PConf dl nl ind sep sn tm en ex ca es cs cm ns pm x  (* ser/mod.rs:382 *)
  end.
(** [PrettyConfig::new()] (ser/mod.rs:130) and calls *)
Definition configure (cs : list call) : pconf := fold_left (fun p c => apply_call c p) cs pconf_default.
