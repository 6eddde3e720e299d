(** Converting serde's buffer (C53): what the result must be made of.  Every
    element and every entry of the buffer has its place in the result, except
    for the fields that a struct does not know. *)
From Coq Require Import NArith ZArith Bool List.
From Verif Require Import Base Facts Value Data Parse De Accept Made IntoRust Content ThmInto.
Import ListNotations.
Open Scope N_scope.
Open Scope list_scope.
Open Scope cv_scope.

Section Drawn.
Context {E : Env}.
Variable tenv : nat -> ty.

(** a key that stands for a variant *)
Inductive names_variant (variants : list (str * vty)) : value -> str -> vty -> Prop :=
  | nv_str s w : assoc s variants = Some w -> names_variant variants (XStr s) s w
  | nv_bytes k w : find (fun v => str_eqb (enc k) (enc (fst v))) variants = Some (k, w) -> names_variant variants (XBytes (enc k)) k w
  | nv_index ik z k w : In ik [U8; U64] -> nth_error variants (Z.to_nat z) = Some (k, w) -> names_variant variants (XNum (NInt ik z)) k w.

Inductive drawn : ty -> value -> val -> Prop :=
  | dr_ref n x v : drawn (tenv n) x v -> drawn (TRef n) x v
  | dr_bool b : drawn TBool (XBool b) (VBool b)
  | dr_int k k' z : is_128 k = false -> is_128 k' = false -> in_range k z = true -> drawn (TInt k) (XNum (NInt k' z)) (VInt k z)
  | dr_float_int k k' z : is_128 k' = false -> drawn (TFloat k) (XNum (NInt k' z)) (VFloat k (f_of_int k z))
  | dr_float k k' b : drawn (TFloat k) (XNum (NFloat k' b)) (VFloat k (float_as k k' b))
  | dr_char c : drawn TChar (XChar c) (VChar c)
  | dr_char_str c : drawn TChar (XStr [c]) (VChar c)
  | dr_str s : drawn TStr (XStr s) (VStr s)
  | dr_str_bytes b s : from_utf8 b = Some s -> drawn TStr (XBytes b) (VStr s)
  | dr_bytes b : drawn TBytes (XBytes b) (VBytes b)
  | dr_bytes_str s : drawn TBytes (XStr s) (VBytes (enc s))
  | dr_bytes_seq l bs : Forall2 (fun x b => exists k, is_128 k = false /\ x = XNum (NInt k (Z.of_N b)) /\ b < 256) l bs ->
      drawn TBytes (XSeq l) (VBytes bs)
  | dr_unit : drawn TUnit XUnit VUnit
  | dr_unit_struct name : drawn (TUnitStruct name) XUnit (VUnitStruct name)
  | dr_none t : drawn (TOption t) XNone VNone
  | dr_none_unit t : drawn (TOption t) XUnit VNone
  | dr_some t x v : drawn t x v -> drawn (TOption t) (XSome x) (VSome v)
  | dr_implicit t x v : x <> XNone -> x <> XUnit -> (forall y, x <> XSome y) -> drawn t x v -> drawn (TOption t) x (VSome v)
  | dr_newtype name t x v : drawn t x v -> drawn (TNewtype name t) x (VNewtype name v)
  | dr_seq t l vs : Forall2 (drawn t) l vs -> drawn (TSeq t) (XSeq l) (VSeq vs)
  | dr_tuple ts l vs : length ts = length l -> Forall2 (fun p v => drawn (fst p) (snd p) v) (combine ts l) vs ->
      drawn (TTuple ts) (XSeq l) (VTuple vs)
  | dr_tuple_struct name ts l vs : length ts = length l -> Forall2 (fun p v => drawn (fst p) (snd p) v) (combine ts l) vs ->
      drawn (TTupleStruct name ts) (XSeq l) (VTupleStruct name vs)
  | dr_map kt vt es vs : Forall2 (fun kx kv => drawn kt (fst kx) (fst kv) /\ drawn vt (snd kx) (snd kv)) es vs ->
      drawn (TMap kt vt) (XMap es) (VMap vs)
  | dr_struct_seq deny name fields l vs : length fields = length l ->
      Forall2 (fun p v => drawn (fst p) (snd p) v) (combine (map snd fields) l) vs ->
      drawn (TStruct deny name fields) (XSeq l) (VStruct name (combine (map fst fields) vs))
  | dr_struct deny name fields es ents fs : Forall2 (made_entry drawn deny fields) es ents ->
      struct_of (is_option tenv) fields ents fs ->
      drawn (TStruct deny name fields) (XMap es) (VStruct name fs)
  | dr_unit_variant name variants s : assoc s variants = Some WUnit -> drawn (TEnum name variants) (XStr s) (VUnitVariant name s)
  | dr_unit_variant_of name variants kx k : names_variant variants kx k WUnit ->
      drawn (TEnum name variants) (XMap [(kx, XUnit)]) (VUnitVariant name k)
  | dr_new_variant name variants kx k t x v : names_variant variants kx k (WNew t) -> drawn t x v ->
      drawn (TEnum name variants) (XMap [(kx, x)]) (VNewVariant name k v)
  | dr_tup_variant name variants kx k ts l vs : names_variant variants kx k (WTup ts) ->
      length ts = length l -> Forall2 (fun p v => drawn (fst p) (snd p) v) (combine ts l) vs ->
      drawn (TEnum name variants) (XMap [(kx, XSeq l)]) (VTupVariant name k vs)
  | dr_struct_variant_seq name variants kx k deny fields l vs : names_variant variants kx k (WStruct deny fields) ->
      length fields = length l -> Forall2 (fun p v => drawn (fst p) (snd p) v) (combine (map snd fields) l) vs ->
      drawn (TEnum name variants) (XMap [(kx, XSeq l)]) (VStructVariant name k (combine (map fst fields) vs))
  | dr_struct_variant name variants kx k deny fields es ents fs : names_variant variants kx k (WStruct deny fields) ->
      Forall2 (made_entry drawn deny fields) es ents -> struct_of (is_option tenv) fields ents fs ->
      drawn (TEnum name variants) (XMap [(kx, XMap es)]) (VStructVariant name k fs)
  | dr_any x : drawn TAny x (embed (norm x))
  | dr_ignored x : drawn TIgnored x VIgnored.

Lemma find_variant_sound variants kx k w : find_variant variants kx = CVal (k, w) -> names_variant variants kx k w.
Proof.
  unfold find_variant. destruct kx as [b|c|m|n| |x|s|b|l|]; try discriminate.
  - destruct n as [ik z|k' b]; [|discriminate]. destruct ik; try discriminate.
    all: destruct (nth_error _ _) as [[k' w']|] eqn:Q; [|discriminate]; intros H; injection H as <- <-.
    all: constructor; [cbn; tauto|exact Q].
  - destruct (find _ _) as [[k' w']|] eqn:Q; [|discriminate]. intros H. injection H as <- <-.
    apply find_assoc in Q as [-> Q]. now constructor.
  - destruct (find _ _) as [[k' w']|] eqn:Q; [|discriminate]. intros H. injection H as <- <-.
    pose proof (find_some _ _ Q) as [_ X]. cbn in X. apply str_eqb_eq in X. subst b. now constructor.
Qed.
Lemma exact_sound fs l vs : exact_elems fs l = CVal vs -> length fs = length l /\ Forall2 (fun p v => (fst p) (snd p) = CVal v) (combine fs l) vs.
Proof.
  unfold exact_elems. intros H. cv. destruct x as [vs' r]. cbn [fst snd] in H. destruct r; [|discriminate H]. cbn in H. injection H as <-.
  apply take_elems_sound in H0 as (l' & -> & L & F). now rewrite app_nil_r.
Qed.
Lemma fields_sound rec deny fields es fs : content_fields tenv rec deny fields es = CVal fs ->
  exists ents, Forall2 (made_entry (fun t x v => rec t x = CVal v) deny fields) es ents /\ struct_of (is_option tenv) fields ents fs.
Proof.
  unfold content_fields. destruct (forallb _ es); [|discriminate]. intros H. cv. exact (struct_sound tenv _ _ _ _ _ _ H0 H).
Qed.
Theorem of_content_drawn f : forall t x v, of_content tenv f t x = CVal v -> drawn t x v.
Proof.
  induction f as [|f IH]; [discriminate|]. intros t x v H.
  assert (EL : forall ts l vs, exact_elems (map (of_content tenv f) ts) l = CVal vs ->
    length ts = length l /\ Forall2 (fun p v => drawn (fst p) (snd p) v) (combine ts l) vs).
  { intros ts l vs Q. apply exact_sound in Q as [L F]. rewrite map_length in L. split; [exact L|]. rewrite combine_map_l in F.
    apply Forall2_map_l in F. eapply Forall2_imp; [|exact F]. cbn. intros; now apply IH. }
  assert (FL : forall deny fields es fs, content_fields tenv (of_content tenv f) deny fields es = CVal fs ->
    exists ents, Forall2 (made_entry drawn deny fields) es ents /\ struct_of (is_option tenv) fields ents fs).
  { intros deny fields es fs Q. apply fields_sound in Q as (ents & F & S). exists ents. split; [|exact S].
    eapply Forall2_imp; [|exact F]. intros kx fv [k x' f' t' v' K R|k x' K D]; econstructor; eauto. }
  assert (EF : forall (fields : list (str * ty)) l vs, exact_elems (map (fun ft => of_content tenv f (snd ft)) fields) l = CVal vs ->
    length fields = length l /\ Forall2 (fun p v => drawn (fst p) (snd p) v) (combine (map snd fields) l) vs).
  { intros fields l vs Q. rewrite <- (map_map snd (of_content tenv f)) in Q. apply EL in Q as [L F]. rewrite map_length in L. auto. }
  destruct t; cbn [of_content content_step] in H.
  - destruct x; try discriminate H. injection H as <-. constructor.
  - destruct (is_128 k) eqn:K; [discriminate|]. destruct x as [b|c|m|n| |x|s|b|l|]; try discriminate H. destruct n as [k' z|k' b]; cbn in H; [|discriminate].
    rewrite K in H. destruct (is_128 k') eqn:K'; [discriminate|]. cbn [negb orb andb] in H.
    destruct (in_range k z) eqn:R; [|discriminate]. injection H as <-. now constructor.
  - destruct x as [b|c|m|n| |x|s|b|l|]; try discriminate H. destruct n as [k' z|k' b]; cbn in H.
    + destruct (is_128 k') eqn:K; [discriminate|]. injection H as <-. now constructor.
    + injection H as <-. constructor.
  - destruct x as [b|c|m|n| |x|s|b|l|]; try discriminate H; [injection H as <-; constructor|].
    destruct s as [|c [|? ?]]; try discriminate H. injection H as <-. constructor.
  - destruct x as [b|c|m|n| |x|s|b|l|]; try discriminate H; [injection H as <-; constructor|].
    destruct (from_utf8 b) eqn:Q; [|discriminate]. injection H as <-. now constructor.
  - destruct x as [b|c|m|n| |x|s|b|l|]; try discriminate H; try (injection H as <-; constructor).
    cv. injection H as <-. apply all_elems_sound in H0. constructor. eapply Forall2_imp; [|exact H0]. apply into_byte_sound.
  - destruct x; try discriminate H. injection H as <-. constructor.
  - destruct x; try discriminate H. injection H as <-. constructor.
  - destruct x; try discriminate H; cv; injection H as <-; try (constructor; auto; fail); apply dr_implicit; auto; discriminate.
  - cv. injection H as <-. constructor. auto.
  - destruct x; try discriminate H. cv. injection H as <-. apply all_elems_sound in H0. constructor. eapply Forall2_imp; [|exact H0]. intros; now apply IH.
  - destruct x; try discriminate H. cv. injection H as <-. apply EL in H0 as [L F]. now constructor.
  - destruct x; try discriminate H. cv. injection H as <-. apply EL in H0 as [L F]. now constructor.
  - destruct x; try discriminate H. cv. injection H as <-. apply all_entries_sound in H0. constructor. eapply Forall2_imp; [|exact H0].
    intros [k x'] [k' v']. cbn. intros [A B]. split; now apply IH.
  - cv. injection H as <-. destruct x; try discriminate H0; cbn [content_struct_of] in H0.
    + apply FL in H0 as (ents & F & S). econstructor; eassumption.
    + cv. injection H0 as <-. apply EF in H as [L F]. now constructor.
  - destruct x as [b|c|m|n| |x|s|b|l|]; try discriminate H.
    + destruct m as [|[kx y] [|? ?]]; try discriminate H. cv. destruct x as [k w]. apply find_variant_sound in H0. cbn [fst snd] in H. destruct w; cv; try (injection H as <-).
      * destruct f as [|f']; [discriminate H1|]. cbn [of_content content_step] in H1. destruct y; try discriminate H1. now constructor.
      * econstructor; [exact H0|auto].
      * destruct y; try discriminate H. cv. injection H as <-. apply EL in H1 as [L F]. econstructor; eassumption.
      * destruct y; try discriminate H1; cbn [content_struct_of] in H1.
        -- apply FL in H1 as (ents & F & S). econstructor; eassumption.
        -- cv. injection H1 as <-. apply EF in H as [L F]. econstructor; eassumption.
    + cv. destruct x as [k w]. apply find_variant_sound in H0. cbn [fst snd] in H. destruct w; try discriminate H. injection H as <-. inversion H0; subst. now constructor.
  - injection H as <-. constructor.
  - injection H as <-. constructor.
  - discriminate H.
  - constructor. now apply IH.
Qed.
End Drawn.
