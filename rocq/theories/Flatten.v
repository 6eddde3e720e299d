(** Model of structs with flattened fields (#[serde(flatten)]).

    serde's derived implementation calls deserialize_map.  The deserializer
    recognises the visitor of a struct by its description (de/mod.rs:732-770)
    and has the keys read as strings.  The visitor reads the fields of the
    struct itself at their types and collects all other entries into Contents;
    then each flattened field takes its part of these.  Writing goes through
    serialize_map without a length. *)
From Coq Require Import NArith ZArith Bool List.
From Verif Require Import Base Value Data Parse De Ser IntoRust Content Tagged.
Import ListNotations.
Open Scope N_scope.
Open Scope list_scope.
Open Scope m_scope.
Open Scope cv_scope.

(** a field: of the struct itself, a flattened struct, or a flattened map with
    strings as keys *)
Inductive fdecl := FOwn (t : ty) | FStruct (name : str) (fields : list (str * ty)) | FMap (t : ty).

Section Read.
Context {E : Env}.
Variable tenv : nat -> ty.
Variable fuel : nat.
Variable deny : bool.
Variable sname : str.
Variable decls : list (str * fdecl).

Definition owns : list (str * ty) :=
  flat_map (fun d => match snd d with FOwn t => [(fst d, t)] | _ => [] end) decls.

(** MapAccess of CommaSeparated (de/mod.rs:1129-1178) with
    Terminator::MapAsStruct: keys are read by id::Deserializer with
    [map_as_struct] (de/id.rs:18-30), which wants a string *)
Fixpoint flat_loop (n : nat) (acc : list (str * val)) (had : bool) : M (list (str * val) * list (str * value)) :=
  match n with
  | O => oof
  | S n' =>
      k <- next_key c_rc parse_string had ;;
      match k with
      | None => ret (acc, [])
      | Some k =>
          match assoc k owns with
          | Some t =>
              match assoc k acc with
              | Some _ => fail (EDuplicateStructField k None)
              | None => p <- next_value (de_ty tenv fuel t) ;; flat_loop n' ((k, fst p) :: acc) (snd p)
              end
          | None =>
              p <- next_value content_value ;;
              q <- flat_loop n' acc (snd p) ;;
              ret (fst q, (k, fst p) :: snd q)
          end
      end
  end.

(** serde's FlatMapDeserializer: a struct takes the entries with the names of
    its fields, a map looks at all that are left *)
Definition named_in (fields : list (str * ty)) (p : str * value) : bool := existsb (fun f => str_eqb (fst p) (fst f)) fields.
Definition str_keyed (p : str * value) : value * value := (XStr (fst p), snd p).
Fixpoint flat_rest (ds : list (str * fdecl)) (l : list (str * value)) : conv (list val * list (str * value)) :=
  match ds with
  | [] => CVal ([], l)
  | (_, FOwn _) :: ds' => flat_rest ds' l
  | (_, FStruct name fields) :: ds' =>
      fs <~ content_fields tenv (of_owned tenv fuel) false fields (map str_keyed (filter (named_in fields) l)) ;;
      q <~ flat_rest ds' (filter (fun p => negb (named_in fields p)) l) ;;
      CVal (VStruct name fs :: fst q, snd q)
  | (_, FMap t) :: ds' =>
      es <~ all_entries (of_content tenv fuel TStr) (of_content tenv fuel t) (map str_keyed l) ;;
      q <~ flat_rest ds' l ;;
      CVal (VMap es :: fst q, snd q)
  end.
(** the fields in the order of their declarations *)
Fixpoint assemble (ds : list (str * fdecl)) (own : list (str * val)) (flat : list val) : list (str * val) :=
  match ds with
  | [] => []
  | (k, FOwn _) :: ds' => match own with [] => [] | (_, v) :: own' => (k, v) :: assemble ds' own' flat end
  | (k, _) :: ds' => match flat with [] => [] | v :: flat' => (k, v) :: assemble ds' own flat' end
  end.
Definition flat_map_body : M val :=
  r <- src ;;
  q <- flat_loop (2 + length r) [] true ;;
  own <- collect (is_option tenv) owns (fst q) ;;
  match flat_rest decls (snd q) with
  | CVal (flat, l) =>
      if deny && negb (match l with [] => true | _ => false end) then fail EMessage
      else ret (VStruct sname (assemble decls own flat))
  | CErr e => fail e
  | CFuel => oof
  end.
(** deserialize_map (de/mod.rs:732-770) *)
Definition de_flat : M val := de_map flat_map_body.
End Read.

(** ** Writing *)
(** the entries of a struct with these fields *)
Definition flat_part (d : fdecl) (k : str) (v : val) : option (list (val * val)) :=
  match d, v with
  | FOwn _, _ => Some [(VStr k, v)]
  | FStruct _ _, VStruct _ fs => Some (map (fun f => (VStr (fst f), snd f)) fs)
  | FMap _, VMap es => Some es
  | _, _ => None
  end.
Fixpoint flat_entries (ds : list (str * fdecl)) (fs : list (str * val)) : option (list (val * val)) :=
  match ds, fs with
  | [], [] => Some []
  | (_, d) :: ds', (k, v) :: fs' =>
      match flat_part d k v, flat_entries ds' fs' with Some a, Some b => Some (a ++ b) | _, _ => None end
  | _, _ => None
  end.
Section Write.
Context {E : Env}.
Variable o : opts.
Variable cfg : option pconf.
Local Open Scope sm_scope.
(** serialize_map (ser/mod.rs:1081-1096) with None for the length, which does
    not touch [is_empty] *)
Definition flat_open : SM unit :=
  smod (fun s => sset_isd 0 (sset_nt false s)) ;~
  write [c_lc] ;~
  (if negb (compact_maps cfg) then start_indent cfg else sret tt).
Fixpoint flat_write (es : list (val * val)) (first : bool) : SM bool :=
  match es with
  | [] => sret first
  | (k, v) :: es' => c <~ map_entry cfg first (ser o cfg k) (ser o cfg v) ;; flat_write es' c
  end.
Definition ser_flat (es : list (val * val)) : SM unit :=
  flat_open ;~ f <~ flat_write es true ;; map_close cfg f.
(** to_string (options.rs:266-291) *)
Definition flat_to_string (es : list (val * val)) : str + err :=
  match (ser_new o cfg ;~ ser_flat es) (ser_init o cfg None) with
  | SOk _ s => inl (w_out s)
  | SErr e _ => inr e
  | SPanic => inr EFmt
  end.
End Write.
