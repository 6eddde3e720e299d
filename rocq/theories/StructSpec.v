(** The texts of structs and struct variants whose fields come in any order,
    some of them unknown: what C39 is stated with *)
From Coq Require Import String NArith ZArith Bool List.
From Verif Require Import Base Value Data Parse De Layout Lit Repr VRepr Accept.
Import ListNotations.
Open Scope N_scope.
Open Scope list_scope.

(** Entries that are all followed by a comma *)
Inductive opened {A} (R : A -> str -> Prop) : list A -> str -> Prop :=
  | op_nil : opened R [] []
  | op_cons a t w w' l ts : R a t -> layout w -> layout w' -> opened R l ts ->
      opened R (a :: l) (t ++ w ++ c_comma :: w' ++ ts).

Section Texts.
Context {E : Env}.
Variable e : exts.
Variable tenv : nat -> ty.
Variable fok : fk -> N -> Prop.

(** one entry: a declared field with a value of its type, or any other field
    with any value, which is skipped *)
Inductive field_entry (deny : bool) (fields : list (str * ty)) (c : nat) : str * option val -> str -> Prop :=
  | fe_known k T v tk w w' tv : In (k, T) fields -> typed tenv fok T v -> (need v <= c)%nat ->
      ident_lit tk k -> layout w -> layout w' -> repr e (fun _ => True) v tv ->
      field_entry deny fields c (k, Some v) (tk ++ w ++ c_colon :: w' ++ tv)
  | fe_unknown k x tk w w' tv : ~ In k (map fst fields) -> deny = false -> x_unwrap_variant_newtypes e = false ->
      (vneed x <= c)%nat -> ident_lit tk k -> layout w -> layout w' -> vrepr x tv ->
      field_entry deny fields c (k, None) (tk ++ w ++ c_colon :: w' ++ tv).

(** what comes before the parenthesis; [label] is the name that errors carry *)
Inductive struct_head : ty -> bool -> list (str * ty) -> (list (str * val) -> val) -> str -> nat -> str -> Prop :=
  | sh_struct deny name fields tn : name <> [] -> name_text e (fun _ => True) true name tn ->
      struct_head (TStruct deny name fields) deny fields (VStruct name) name 2 tn
  | sh_variant ename variants k deny fields tk w : NoDup (map fst variants) -> In (k, WStruct deny fields) variants ->
      ident_lit tk k -> layout w ->
      struct_head (TEnum ename variants) deny fields (VStructVariant ename k) k 3 (tk ++ w).

(** the errors about fields *)
Inductive field_error : err -> Prop :=
  | fr_missing f l : field_error (EMissingStructField f l)
  | fr_duplicate f l : field_error (EDuplicateStructField f l)
  | fr_unknown f l : field_error (ENoSuchStructField f l).

(** those that name a struct or variant *)
Inductive labelled : err -> Prop :=
  | lb_missing f l : labelled (EMissingStructField f (Some l))
  | lb_duplicate f l : labelled (EDuplicateStructField f (Some l))
  | lb_unknown f l : labelled (ENoSuchStructField f (Some l)).

(** a value of a type, nested at most [c] deep *)
Definition listed (c : nat) (p : ty * val) (t : str) : Prop :=
  typed tenv fok (fst p) (snd p) /\ (need (snd p) <= c)%nat /\ repr e (fun _ => True) (snd p) t.
Inductive map_entry (c : nat) (K T : ty) : val * val -> str -> Prop :=
  | me k v tk w w' tv : listed c (K, k) tk -> layout w -> layout w' -> listed c (T, v) tv ->
      map_entry c K T (k, v) (tk ++ w ++ c_colon :: w' ++ tv).

(** [fails c T t x]: [t], all that is left of the document, has a mistake in
    the fields of a struct somewhere in a [T]; [x] names that struct, the
    innermost one around the mistake *)
Inductive fails : nat -> ty -> str -> err -> Prop :=
  | f_duplicate c T deny fields mk label h th w ents t tk k r :
      struct_head T deny fields mk label h th -> NoDup (map fst fields) -> layout w ->
      opened (field_entry deny fields c) ents t -> NoDup (map fst (given ents)) ->
      In k (map fst (given ents)) -> ident_lit tk k -> ident_end r ->
      fails (h + c) T (th ++ c_lp :: w ++ t ++ tk ++ r) (EDuplicateStructField k (Some label))
  | f_unknown c T deny fields mk label h th w ents t tk k r :
      struct_head T deny fields mk label h th -> NoDup (map fst fields) -> layout w ->
      opened (field_entry deny fields c) ents t -> NoDup (map fst (given ents)) ->
      deny = true -> ~ In k (map fst fields) -> ident_lit tk k -> ident_end r ->
      fails (h + c) T (th ++ c_lp :: w ++ t ++ tk ++ r) (ENoSuchStructField k (Some label))
  | f_missing c T deny fields mk label h th w ents t k Tk before after r :
      struct_head T deny fields mk label h th -> NoDup (map fst fields) -> layout w ->
      items (field_entry deny fields c) ents t -> NoDup (map fst (given ents)) ->
      fields = before ++ (k, Tk) :: after ->
      Forall (fun ft => In (fst ft) (map fst (given ents)) \/ is_option tenv (snd ft) = true) before ->
      ~ In k (map fst (given ents)) -> is_option tenv Tk = false ->
      fails (h + c) T (th ++ c_lp :: w ++ t ++ c_rp :: r) (EMissingStructField k (Some label))
  | f_field c T deny fields mk label h th w ents t k Tk tk w1 w2 t' x :
      struct_head T deny fields mk label h th -> NoDup (map fst fields) -> layout w ->
      opened (field_entry deny fields c) ents t -> NoDup (map fst (given ents)) ->
      In (k, Tk) fields -> ~ In k (map fst (given ents)) -> ident_lit tk k -> layout w1 -> layout w2 ->
      fails c Tk t' x ->
      fails (h + c) T (th ++ c_lp :: w ++ t ++ tk ++ w1 ++ c_colon :: w2 ++ t') x
  | f_some c T w w' t x : x_unwrap_variant_newtypes e = false -> layout w -> layout w' -> fails c T t x ->
      fails (S c) (TOption T) (s_Some ++ w ++ c_lp :: w' ++ t) x
  | f_implicit c T t x : x_implicit_some e = true -> no_option t -> fails c T t x -> fails (S c) (TOption T) t x
  | f_newtype c name T tn w t x : x_unwrap_newtypes e = false -> name_text e (fun _ => True) true name tn -> layout w ->
      fails c T t x -> fails (S c) (TNewtype name T) (tn ++ c_lp :: w ++ t) x
  | f_unwrapped c name T t x : x_unwrap_newtypes e = true -> fails c T t x -> fails (S c) (TNewtype name T) t x
  | f_seq c T w l tl t x : layout w -> opened (fun v => listed c (T, v)) l tl -> fails c T t x ->
      fails (S (S c)) (TSeq T) (c_lb :: w ++ tl ++ t) x
  | f_tuple c w l tl T Ts t x : layout w -> opened (listed c) l tl -> fails c T t x ->
      fails (S (S c)) (TTuple (map fst l ++ T :: Ts)) (c_lp :: w ++ tl ++ t) x
  | f_tuple_struct c name tn w l tl T Ts t x : name_text e (fun _ => True) false name tn -> layout w ->
      opened (listed c) l tl -> fails c T t x ->
      fails (S (S c)) (TTupleStruct name (map fst l ++ T :: Ts)) (tn ++ c_lp :: w ++ tl ++ t) x
  | f_map_key c K T w l tl t x : layout w -> opened (map_entry c K T) l tl -> fails c K t x ->
      fails (S (S c)) (TMap K T) (c_lc :: w ++ tl ++ t) x
  | f_map_value c K T w l tl k tk w1 w2 t x : layout w -> opened (map_entry c K T) l tl ->
      listed c (K, k) tk -> layout w1 -> layout w2 -> fails c T t x ->
      fails (S (S c)) (TMap K T) (c_lc :: w ++ tl ++ tk ++ w1 ++ c_colon :: w2 ++ t) x
  | f_new_variant c ename variants k T tk w w' t x : x_unwrap_variant_newtypes e = false ->
      NoDup (map fst variants) -> In (k, WNew T) variants -> ident_lit tk k -> layout w -> layout w' ->
      fails c T t x -> fails (S (S c)) (TEnum ename variants) (tk ++ w ++ c_lp :: w' ++ t) x
  | f_tuple_variant c ename variants k l tl T Ts tk w w' t x :
      NoDup (map fst variants) -> In (k, WTup (map fst l ++ T :: Ts)) variants -> ident_lit tk k -> layout w -> layout w' ->
      opened (listed c) l tl -> fails c T t x ->
      fails (S (S (S c))) (TEnum ename variants) (tk ++ w ++ c_lp :: w' ++ tl ++ t) x
  | f_ref c n t x : fails c (tenv n) t x -> fails c (TRef n) t x.
End Texts.

(** ** Which struct an error may name *)
Section Labels.
Variable tenv : nat -> ty.
(** mistakes in the fields of one struct *)
Inductive mistake (deny : bool) (fields : list (str * ty)) (label : option str) : err -> Prop :=
  | mk_missing k T : In (k, T) fields -> is_option tenv T = false -> mistake deny fields label (EMissingStructField k label)
  | mk_duplicate k : In k (map fst fields) -> mistake deny fields label (EDuplicateStructField k label)
  | mk_unknown k : deny = true -> ~ In k (map fst fields) -> mistake deny fields label (ENoSuchStructField k label).

(** the types of the parts of values *)
Inductive part : ty -> ty -> Prop :=
  | p_option T : part T (TOption T)
  | p_newtype name T : part T (TNewtype name T)
  | p_seq T : part T (TSeq T)
  | p_tuple T Ts : In T Ts -> part T (TTuple Ts)
  | p_tuple_struct name T Ts : In T Ts -> part T (TTupleStruct name Ts)
  | p_key K T : part K (TMap K T)
  | p_value K T : part T (TMap K T)
  | p_field deny name k T fields : In (k, T) fields -> part T (TStruct deny name fields)
  | p_new_variant ename k T variants : In (k, WNew T) variants -> part T (TEnum ename variants)
  | p_tuple_variant ename k T Ts variants : In (k, WTup Ts) variants -> In T Ts -> part T (TEnum ename variants)
  | p_struct_variant ename k deny f T fields variants : In (k, WStruct deny fields) variants -> In (f, T) fields ->
      part T (TEnum ename variants)
  | p_ref n : part (tenv n) (TRef n).
Inductive within : ty -> ty -> Prop :=
  | wi_same T : within T T
  | wi_part U V T : within U V -> part V T -> within U T.

(** a struct or struct variant with its name and fields *)
Inductive declares : ty -> str -> bool -> list (str * ty) -> Prop :=
  | dc_struct deny name fields : declares (TStruct deny name fields) name deny fields
  | dc_variant ename variants k deny fields : In (k, WStruct deny fields) variants ->
      declares (TEnum ename variants) k deny fields.

(** [x] names a struct in [T] that has the field in question, or lacks it *)
Definition blames (T : ty) (x : err) : Prop :=
  exists U label deny fields, within U T /\ declares U label deny fields /\ mistake deny fields (Some label) x.
End Labels.
