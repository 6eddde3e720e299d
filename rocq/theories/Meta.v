(** ser/path_meta.rs: the API that builds a [Field], as programs of its calls.

    A [fprog] is a sequence of method calls on one [&mut Field], a [gprog] one
    on one [&mut Fields].  The closure given to [build_fields] is a [gprog], as
    is the way the argument of [with_fields(Some(_))] came about; [Field::new]
    is a program run on [Field::empty()], and [from_iter] the program of its
    inserts.  Not modelled: what [insert] and [remove] return, and [doc_mut]
    other than to assign it, which is [with_doc].  The map is a list with one
    entry for each name, as in Ser.v. *)
From Coq Require Import List Bool.
From Verif Require Import Base Value Data De Ser.
Import ListNotations.
Open Scope list_scope.

Inductive fprog :=
  | FDone
  | FDoc (d : str) (r : fprog)         (* with_doc(d) *)
  | FClear (r : fprog)                 (* with_fields(None) *)
  | FBuild (g : gprog) (r : fprog)     (* build_fields(g), with_fields(Some(_)) *)
  | FMut (g : gprog) (r : fprog)       (* if let Some(fields) = fields_mut() { g } *)
with gprog :=
  | GDone
  | GInsert (k : str) (f : fprog) (r : gprog)  (* insert(k, _) *)
  | GRemove (k : str) (r : gprog)              (* remove(k) *)
  | GField (k : str) (f : fprog) (r : gprog)   (* field(k) and calls on it *)
  | GGet (k : str) (f : fprog) (r : gprog).    (* if let Some(field) = get_mut(k) and calls on it *)

(** path_meta.rs:121 Field::empty *)
Definition f_empty : pfield := PField [] None.
(** path_meta.rs:139 doc, 193 has_fields, 170 fields *)
Definition f_doc (f : pfield) : str := let 'PField d _ := f in d.
Definition f_has_fields (f : pfield) : bool := let 'PField _ fs := f in match fs with Some _ => true | None => false end.
Definition f_fields (f : pfield) : option (list (str * pfield)) := let 'PField _ fs := f in fs.
(** path_meta.rs:163 with_doc, 214 with_fields *)
Definition f_with_doc (d : str) (f : pfield) : pfield := let 'PField _ fs := f in PField d fs.
Definition f_with_fields (fs : option (list (str * pfield))) (f : pfield) : pfield := let 'PField d _ := f in PField d fs.
(** path_meta.rs:281 contains, 267 is_empty, 295 get *)
Definition g_contains (k : str) (l : list (str * pfield)) : bool := match assoc k l with Some _ => true | None => false end.
Definition g_is_empty (l : list (str * pfield)) : bool := match l with [] => true | _ => false end.
(** path_meta.rs:355 field: entry(name).or_insert_with(Field::empty) *)
Definition g_entry (k : str) (l : list (str * pfield)) : pfield := match assoc k l with Some f => f | None => f_empty end.

(** path_meta.rs:118-358 *)
Fixpoint frun (p : fprog) (f : pfield) : pfield :=
  match p with
  | FDone => f
  | FDoc d r => frun r (f_with_doc d f)
  | FClear r => frun r (f_with_fields None f)
  | FBuild g r => frun r (f_with_fields (Some (grun g [])) f)
  | FMut g r => match f_fields f with
                | Some l => frun r (f_with_fields (Some (grun g l)) f)
                | None => frun r f
                end
  end
with grun (p : gprog) (l : list (str * pfield)) : list (str * pfield) :=
  match p with
  | GDone => l
  | GInsert k f r => grun r (pf_insert k (frun f f_empty) l)
  | GRemove k r => grun r (pf_remove k l)
  | GField k f r => grun r (pf_insert k (frun f (g_entry k l)) l)
  | GGet k f r => match assoc k l with
                  | Some x => grun r (pf_insert k (frun f x) l)
                  | None => grun r l
                  end
  end.
