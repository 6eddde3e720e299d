(** Reading adjacently tagged enums with the tag first (C58). *)
From Coq Require Import String Ascii NArith ZArith Lia Bool List Permutation.
From Coq Require Import ZifyBool ZifyNat ZifyN.
From Verif Require Import Base Facts Value Data Parse De Wp EnvOk Layout Lit LexSafe LexWs LexRead DocSafe DocRead SerLex Typing Repr ReprFacts TypedRead TypedMain VRepr AnyRead AnyMain Unwrap IntoRust Content ContentRead ContentMain ThmInto Tagged TaggedRead Adjacent.
Import ListNotations.
Open Scope N_scope.
Open Scope list_scope.
Open Scope m_scope.

Section WithEnv.
Context {E : Env} {X : XidOk E} {FO : FloatOk E}.
Variable e : exts.
Variable sf : token -> Prop.
Variable tenv : nat -> ty.
Variable fok : fk -> N -> Prop.
Hypothesis HN : forall t, sf (KName t) -> ~ In t keywords.
Local Notation both := (ReprFacts.both e sf (ok e tenv fok)).

(** ** The fields of a struct variant *)
Section AnyStruct.
Variable rec : ty -> M val.
Variable deny : bool.
Variable fields : list (str * ty).
Lemma fields_loop_eq n : forall acc had s, fields_loop rec deny fields n c_rp acc had s = struct_loop rec deny fields n acc had s.
Proof.
  induction n as [|n IH]; intros acc had s; [reflexivity|]. cbn [fields_loop struct_loop]. unfold bind.
  destruct (next_key c_rp _ had s) as [[k|] s1| | |]; try reflexivity.
  destruct (assoc k fields) as [t|]; [destruct (assoc k acc); [reflexivity|]|];
  (destruct (next_value _ s1) as [p s2| | |]; try reflexivity; apply IH).
Qed.
Lemma fields_map_eq s : fields_map tenv rec deny fields c_rp s = struct_body rec deny fields (is_option tenv) s.
Proof.
  unfold fields_map, struct_body, bind. destruct (src s) as [r s1| | |]; try reflexivity.
  now rewrite fields_loop_eq.
Qed.
Local Notation body := (any_struct_body tenv rec deny fields).
Definition any_struct_tail : M (list (str * val)) :=
  id <- skip_identifier ;;
  match id with
  | Some _ => skip_ws ;;; body
  | None =>
      c <- peek_char_or_eof ;;
      if c =? c_lp then body
      else if c =? c_lb then de_seq (fail EInvalidValueForType)
      else if c =? c_lc then de_map (fields_map tenv rec deny fields c_rc)
      else if is_digit c || (c =? c_plus) || (c =? c_minus) || (c =? c_dot) || (c =? c_b)
      then range_struct tenv deny fields any_number_or_bytes
      else if (c =? c_dq) || (c =? c_r) then parse_string ;;; fail EInvalidValueForType
      else if c =? c_sq then parse_char ;;; fail EInvalidValueForType
      else fail (EUnexpectedChar c)
  end.
Lemma any_struct_skip s : no_word (rest s) -> starts_with s_unit (rest s) = false -> any_struct tenv rec deny fields s = any_struct_tail s.
Proof.
  intros W U. unfold any_struct.
  assert (CI : forall w, In w keywords -> consume_ident w s = Ok false s) by (intros w IN; now apply consume_ident_false, W).
  do 2 (unfold bind at 1; rewrite CI by (cbn; tauto)).
  unfold bind at 1. rewrite check_ident_eq, W by (cbn; tauto). cbv iota.
  unfold bind at 1; rewrite CI by (cbn; tauto).
  unfold bind at 1. rewrite consume_str_eq. unfold starts_with in U. destruct (strip_prefix s_unit (rest s)); [discriminate|].
  unfold bind at 1. rewrite CI by (cbn; tauto). unfold bind at 1. rewrite CI by (cbn; tauto).
  unfold bind at 1. rewrite CI by (cbn; tauto).
  unfold bind at 1. rewrite CI by (cbn; tauto). unfold bind at 1. rewrite CI by (cbn; tauto).
  unfold bind at 1. rewrite CI by (cbn; tauto). reflexivity.
Qed.
Lemma tr_any_struct_name c tn t x : any_name tn -> (tn = [] -> starts_with s_unit (c_lp :: t) = false /\ t <> []) ->
  tr e body false false c (c_lp :: t) anything x ->
  tr e (any_struct tenv rec deny fields) false false c (tn ++ c_lp :: t) anything x.
Proof.
  intros AN NE H. destruct AN as [|ti n w HI NK L].
  - destruct (NE eq_refl) as [SU NB]. eapply tr_eq; [|exact H]. intros s r _ Hs.
    assert (N0 : noid (c_lp :: t)) by (apply noid_head; [now apply not_first|discriminate]).
    rewrite any_struct_skip; rewrite ?Hs; [|apply no_word_head; cbn; intuition discriminate|].
    + unfold any_struct_tail. unfold bind at 1. rewrite (N0 s r Hs). unfold bind at 1, peek_char_or_eof, bind, peek_char. now rewrite Hs.
    + cbn [app]. destruct t as [|b t]; [congruence|]. unfold starts_with in *. change s_unit with [c_lp; c_rp] in *. cbn [strip_prefix app] in *.
      destruct (c_lp =? c_lp); [|reflexivity]. now destruct (c_rp =? b).
  - eapply tr_eq with (m' := any_struct_tail).
    { intros s r _ Hs. apply any_struct_skip; rewrite Hs, <- !app_assoc.
      - eapply no_word_ident; [exact HI|assumption|]. cbn [app]. now apply lp_ident_end.
      - eapply ident_not_unit; eassumption. }
    unfold any_struct_tail. eapply tr_text with (t := ti ++ w ++ c_lp :: t); [|texts].
    apply (tr_bind e _ _ false false false c ti (w ++ c_lp :: t) ident_end anything (Some n)); [now apply tr_lex, reads_skip_identifier| |].
    + refine (tr_bind e _ _ false false false c w (c_lp :: t) solid anything tt _ _ _ _); [now apply tr_ws|exact H|].
      intros r _. apply solid_char; reflexivity || discriminate.
    + intros r _. rewrite <- app_assoc. now apply lp_ident_end.
Qed.
Lemma tr_any_struct_named {V} (R : V -> str -> Prop) c l t v w : layout w -> l <> [] -> items (entry field_key_text R) l t ->
  tr e (struct_body rec deny fields (is_option tenv)) false false (S c) (w ++ t) (begins c_rp) v ->
  tr e body false false (S (S c)) (c_lp :: w ++ t ++ [c_rp]) anything v.
Proof.
  intros L NE HI TM T s r J Hs _ He Hn Hl. unfold any_struct_body. apply wp_bind.
  assert (F : exists ti n w1 t', ident_lit ti n /\ layout w1 /\ t = ti ++ w1 ++ c_colon :: t').
  { destruct HI as [|a ta w1 H L1|a ta w1 w2 l ts H L1 L2 HI]; [congruence|..];
      (destruct H as [k tk x tv w3 w4 HK L3 L4 HV]); exists tk, k, w3; eexists;
      (split; [exact HK|]); (split; [assumption|]); texts. }
  destruct F as (ti & n & w1 & t' & HK & L1 & EQ).
  eapply wp_conseq with (Q := fun ty s' => ty = Named /\ rest s' = rest s /\ adv T s s') (R := fun _ _ => False); [| |auto].
  - eapply check_type_look with (w := w) (r := ti ++ w1 ++ c_colon :: t' ++ c_rp :: r); [assumption|rewrite Hs, EQ; texts|assumption|eapply ident_opens; eassumption|].
    intros s' A' R'. eapply look_named; [exact HK|exact L1|apply A'|exact R'].
  - cbn beta. intros ty s1 (-> & R1 & A1).
    assert (HT : tr e (struct_after_name [] (fields_map tenv rec deny fields c_rp)) false false (S (S c))
       (parens false ((w ++ t) ++ [])) (after_parens false) v).
    { eapply tr_struct_after_name with (D := begins c_rp); [eapply tr_eq; [|exact TM]; intros; apply fields_map_eq|constructor|auto]. }
    destruct (adv_keeps T s s1 A1) as (K1 & K2 & K3). rewrite <- K3.
    apply (HT T s1 r); [apply A1|rewrite R1, Hs; cbn [parens]; rewrite app_nil_r; texts|exact Logic.I|congruence|congruence|rewrite K3; assumption].
Qed.
End AnyStruct.
Lemma repr_both v t : repr e sf v t -> both v t.
Proof. intros H. split; [exact H|now apply repr_ok with sf]. Qed.
Lemma any_struct_good deny fields k fs t : repr e sf (VStruct k fs) t -> (sf KRange -> forall t, ~ range_text (VStruct k fs) t) -> fs <> [] ->
  NoDup (map fst fields) -> map fst fs = map fst fields -> Forall (fun fv => exists t, In (fst fv, t) fields /\ typed tenv fok t (snd fv)) fs ->
  exists n, forall f, (n <= f)%nat -> tr e (any_struct tenv (de_ty tenv f) deny fields) false false (need (VStruct k fs)) t anything fs.
Proof.
  intros R NR NE ND EQ F. inversion R as [| | | | | | | | | |? ? ? RT| | | | | | | | | |? ? fs' tn ti w NM L P IT| | | |]; subst; try (exfalso; eapply NR; eassumption).
  assert (IB : items (entry field_key_text both) fs' ti) by exact (items_mono _ _ (entry_mono _ _ _ _ (fun _ _ h => h) repr_both) fs' ti IT).
  destruct (fields_good e sf tenv fok deny fields (max_list (map (fun kv => need (snd kv)) fs)) fs' ti IB ND) as (n & H).
  - eapply Permutation_Forall; eassumption.
  - intros fv IN. apply (max_list_map (fun kv => need (snd kv))). eapply Permutation_in; [symmetry; exact P|assumption].
  - assert (NE' : fs' <> []) by (intros ->; apply NE, Permutation_nil; now symmetry).
    exists n. intros f LF. cbn [need]. apply tr_any_struct_name.
    + destruct NM as [_|t0 w0 S0 I0 L0 _]; [constructor|]. apply an_some with k; auto.
    + intros _. split; [|now destruct w; destruct ti]. apply lp_not_unit; [exact L|]. right.
      destruct IT as [|a ta w1 H1 L1|a ta w1 w2 l ts H1 L1 L2 HI]; [congruence|..]; destruct H1 as [k0 tk x tv w3 w4 HK L3 L4 HV]; rewrite <- !app_assoc; eapply ident_opens; exact HK.
    + eapply tr_any_struct_named; [exact L|exact NE'|exact IT|].
      apply (tr_struct_body e (de_ty tenv f) deny fields (is_option tenv) _ (map some_field fs') ti w fs); auto.
      * rewrite known_some. eapply Permutation_NoDup; [apply Permutation_map; exact P|]. now rewrite EQ.
      * rewrite known_some. now apply fields_collected.
Qed.

(** ** The entries *)
Lemma entry_end {V} (R : V -> str -> Prop) k v t : items (entry field_key_text R) [(k, v)] t ->
  exists tk tl tv b, t = tk ++ tl /\ ident_lit tk k /\ R v tv /\ (forall r, ident_end (tl ++ r)) /\
    forall A (m : M A) c a, good e m c tv a -> tr e (next_value m) false false (S c) tl (begins c_rp) (a, b).
Proof.
  intros H. inversion H as [|? ta w H1 L1|? ta w w' ? ts H1 L1 L1' H2]; subst; [|inversion H2; subst]; inversion H1 as [? tk ? tv w3 w4 HK L3 L4 HV]; subst.
  - exists tk, (w3 ++ c_colon :: w4 ++ tv ++ w), tv, false. split; [texts|]. split; [exact HK|]. split; [exact HV|]. split.
    + intros r. rewrite <- app_assoc. apply delim_ident_end, layout_delim; [exact L3|cbn; tauto].
    + intros A m c a G. apply tr_colon_last; auto. cbn. tauto.
  - exists tk, (w3 ++ c_colon :: w4 ++ tv ++ w ++ c_comma :: w'), tv, true. split; [rewrite app_nil_r; texts|]. split; [exact HK|]. split; [exact HV|]. split.
    + intros r. rewrite <- app_assoc. apply delim_ident_end, layout_delim; [exact L3|cbn; tauto].
    + intros A m c a G. eapply tr_D; [apply tr_colon_comma; auto|]. intros r. apply closer_solid. cbn. tauto.
Qed.
Lemma entry_more {V} (R : V -> str -> Prop) k v p l t : items (entry field_key_text R) ((k, v) :: p :: l) t ->
  exists tk tl tv ts, t = tk ++ tl ++ ts /\ ident_lit tk k /\ R v tv /\ (forall r, ident_end (tl ++ r)) /\ items (entry field_key_text R) (p :: l) ts /\
    forall A (m : M A) c a, good e m c tv a -> tr e (next_value m) false false (S c) tl solid (a, true).
Proof.
  intros H. inversion H as [|? ta w H1 L1|? ta w w' ? ts H1 L1 L1' H2]; subst. inversion H1 as [? tk ? tv w3 w4 HK L3 L4 HV]; subst.
  exists tk, (w3 ++ c_colon :: w4 ++ tv ++ w ++ c_comma :: w'), tv, ts. split; [texts|]. split; [exact HK|]. split; [exact HV|]. split; [|split; [exact H2|]].
  - intros r. rewrite <- app_assoc. apply delim_ident_end, layout_delim; [exact L3|cbn; tauto].
  - intros A m c a G. apply tr_colon_comma; auto.
Qed.

Section Body.
Variables tag content : str.
Variable deny : bool.
Variable ename : str.
Variable variants : list (str * avariant).
Hypothesis TC : tag <> content.
Hypothesis ND : NoDup (map fst variants).

(** the values of such an enum *)
Inductive adjacent_val : val -> Prop :=
  | av_unit k : In (k, AUnit) variants -> adjacent_val (VUnitVariant ename k)
  | av_new k T v : In (k, ANew T) variants -> typed tenv fok T v -> adjacent_val (VNewVariant ename k v)
  | av_tup k ts l : In (k, ATup ts) variants -> Forall2 (typed tenv fok) ts l -> adjacent_val (VTupVariant ename k l)
  | av_struct k dn fields fs : In (k, AStruct dn fields) variants -> NoDup (map fst fields) -> map fst fs = map fst fields ->
      Forall (fun fv => exists t, In (fst fv, t) fields /\ typed tenv fok t (snd fv)) fs ->
      adjacent_val (VStructVariant ename k fs).
(** the fields of a struct variant are not written as a unit or a range *)
Definition visible (v : val) : Prop :=
  match v with
  | VStructVariant _ k fs => fs <> [] /\ (sf KRange -> forall t, ~ range_text (VStruct k fs) t)
  | _ => True
  end.

Lemma tr_relevant n c w tk k b : layout w -> ident_lit tk k -> (k = tag /\ b = true \/ k = content /\ b = false) ->
  tr e (relevant_key tag content deny (S n) true) false false (S c) (w ++ tk) ident_end (Some b).
Proof.
  intros L HK HB. cbn [relevant_key].
  eapply tr_bind_l with (D1 := ident_end) (a := Some (if b then KeyTag else KeyContent)); [|destruct b; apply tr_ret|auto].
  apply tr_key; [cbn; tauto|exact L|intros r; eapply ident_opens; exact HK|]. unfold adjacent_key.
  eapply tr_bind_l with (D1 := ident_end); [apply tr_ident; exact HK| |auto].
  destruct HB as [[-> ->]|[-> ->]]; [rewrite str_eqb_refl; apply tr_ret|].
  destruct (str_eqb content tag) eqn:Q; [apply str_eqb_eq in Q; congruence|]. rewrite str_eqb_refl. apply tr_ret.
Qed.
Lemma tr_no_relevant n c b : tr e (relevant_key tag content deny (S n) b) false false c [] (begins c_rp) None.
Proof.
  cbn [relevant_key]. eapply tr_bind_l with (D1 := begins c_rp); [apply tr_no_key; [cbn; tauto|constructor]|apply tr_ret|auto].
Qed.
Lemma tag_good k w tv c : In (k, w) variants -> repr e sf (VUnitVariant ename k) tv -> (2 <= c)%nat -> good e (adjacent_tag tenv ename variants) c tv (k, w).
Proof.
  intros IN R LC. inversion R as [| | | | | | | | | |? ? ? RT| | | | | | | | | | |? ? ? _ HI| | |]; subst; [inversion RT|].
  apply good_tr; [intros r; eapply ident_opens; exact HI|]. eapply tr_le; [exact LC|]. unfold adjacent_tag.
  eapply tr_bind_l with (D1 := delim) (a := VUnitVariant ename k); [| |auto].
  - cbn [de_step]. apply tr_enum; [|intros r; eapply opens_solid, ident_opens; exact HI].
    eapply tr_text; [eapply (tr_enum_id e (map (fun p => (fst p, WUnit)) variants) k tv WUnit _ false false 1 []); [exact HI| | |apply tr_ret|apply delim_ident_end|lia]|apply app_nil_r].
    + rewrite map_map. exact ND.
    + apply in_map_iff. exists (k, w). auto.
  - cbn iota. rewrite (TypedRead.assoc_in k w variants ND IN). apply tr_ret.
Qed.
(** what is in the content *)
Definition content_of (v : val) : option val :=
  match v with
  | VNewVariant _ _ v => Some v
  | VTupVariant _ _ l => Some (VTuple l)
  | VStructVariant _ k fs => Some (VStruct k fs)
  | _ => None
  end.
Definition variant_name (v : val) : str :=
  match v with VUnitVariant _ k | VNewVariant _ k _ | VTupVariant _ k _ | VStructVariant _ k _ => k | _ => [] end.
Lemma content_good v x tx : adjacent_val v -> visible v -> content_of v = Some x -> repr e sf x tx ->
  exists w n, In (variant_name v, w) variants /\ forall f, (n <= f)%nat -> good e (adjacent_value tenv f ename (variant_name v, w)) (need x) tx v.
Proof.
  intros AV VS CO R. destruct AV as [k IN|k T v IN HT|k ts l IN F|k dn fields fs IN NF EQ F]; cbn [content_of] in CO; try discriminate; injection CO as <-; cbn [variant_name].
  - exists (ANew T). destruct (ok_good e sf tenv fok v tx T (need v) (repr_both _ _ R) HT (le_n _)) as (n & H). exists n. split; [exact IN|]. intros f LF.
    destruct (H f LF) as [O G]. split; [exact O|]. unfold adjacent_value. cbn [snd fst]. eapply trw_bind_ret; [exact G|reflexivity].
  - exists (ATup ts). inversion R as [| | | | | | | | | |? ? ? RT| | | | | | |? t w L I| | | | | | |]; subst; [inversion RT|].
    destruct (tuple_body e sf tenv fok ts l t w (VTupVariant ename k) F (items_mono _ _ repr_both l t I) L) as (n & H). exists n. split; [exact IN|]. intros f LF.
    apply good_tr; [intros r; exact (repr_opens e sf _ _ R r)|]. unfold adjacent_value. cbn [snd fst need].
    destruct (H f LF) as (w1 & t1 & D & EQ & L1 & HD & TR).
    eapply tr_text; [eapply tr_D; [exact (tr_de_tuple e _ false _ t1 w1 _ D TR L1 HD)|now intros]|].
    unfold parens. rewrite <- EQ. texts.
  - exists (AStruct dn fields). cbn [visible] in VS. destruct VS as [NE NR].
    destruct (any_struct_good dn fields k fs tx R NR NE NF EQ F) as (n & H). exists n. split; [exact IN|]. intros f LF.
    apply good_tr; [intros r; exact (repr_opens e sf _ _ R r)|]. unfold adjacent_value. cbn [snd fst].
    eapply tr_bind_l with (D1 := anything); [now apply H|apply tr_ret|now intros].
Qed.
Lemma body_reads v l t w : adjacent_val v -> visible v -> as_adjacent tag content v = Some (VStruct ename l) -> layout w ->
  items (entry field_key_text (repr e sf)) l t ->
  exists n, forall f, (n <= f)%nat -> tr e (adjacent_body tenv f tag content deny ename variants) false false
    (S (max_list (map (fun kv => need (snd kv)) l))) (w ++ t) (begins c_rp) v.
Proof.
  intros AV VS AA L IT.
  assert (CASES : (exists k, v = VUnitVariant ename k /\ In (k, AUnit) variants /\ l = [(tag, VUnitVariant ename k)]) \/
    exists x, content_of v = Some x /\ l = [(tag, VUnitVariant ename (variant_name v)); (content, x)]).
  { destruct AV; cbn [as_adjacent content_of variant_name] in *; injection AA as <-; [left|right..]; eauto. }
  destruct CASES as [(k & -> & IN & ->)|(x & CO & ->)].
  - exists 0%nat. intros f _. cbn [map snd max_list need Nat.max].
    destruct (entry_end _ _ _ _ IT) as (tk & tl & tv & b & -> & HK & R & IE & NV).
    unfold adjacent_body. apply tr_src. intros r HB. cbn zeta. rewrite app_assoc.
    refine (tr_bind e _ _ false false false _ (w ++ tk) tl ident_end _ (Some true) _ _ _ _); [apply tr_relevant with tag; auto| |intros r' _; apply IE].
    cbn iota. eapply tr_bind_l with (D1 := begins c_rp); [apply NV, (tag_good k AUnit); [exact IN|exact R|lia]| |intros r' ->; exact HB].
    cbn [fst snd]. eapply tr_bind_l with (D1 := begins c_rp); [apply tr_no_relevant|apply tr_ret|intros r' ->; exact HB].
  - destruct (entry_more _ _ _ _ _ _ IT) as (tk & tl & tv & ts & -> & HK & R & IE & IT2 & NV).
    destruct (entry_end _ _ _ _ IT2) as (tk2 & tl2 & tx & b & -> & HK2 & R2 & IE2 & NV2).
    destruct (content_good v x tx AV VS CO R2) as (wv & n & IN & G). exists n. intros f LF. cbn [map snd max_list need].
    unfold adjacent_body. apply tr_src. intros r HB. cbn zeta.
    eapply tr_text; [refine (tr_bind e _ _ false false false _ (w ++ tk) (tl ++ tk2 ++ tl2) ident_end _ (Some true) _ _ _ _)|texts];
      [apply tr_relevant with tag; auto| |intros r' _; rewrite <- app_assoc; apply IE].
    cbn iota. refine (tr_bind e _ _ false false false _ tl (tk2 ++ tl2) solid _ ((variant_name v, wv), true) _ _ _ _);
      [apply NV, (tag_good _ wv); [exact IN|exact R|lia]| |intros r' _; rewrite <- app_assoc; eapply opens_solid, ident_opens; exact HK2].
    cbn [fst snd]. refine (tr_bind e _ _ false false false _ tk2 tl2 ident_end _ (Some false) _ _ _ _);
      [apply (tr_relevant _ _ [] tk2 content false l_nil HK2); auto| |intros r' _; apply IE2].
    cbn iota. eapply tr_bind_l with (D1 := begins c_rp); [apply NV2; destruct (G f LF) as [O GG]; split; [exact O|eapply trw_le; [|exact GG]; lia]| |intros r' ->; exact HB].
    cbn [fst snd]. unfold no_more. eapply tr_bind_l with (D1 := begins c_rp); [apply tr_no_relevant|apply tr_ret|intros r' ->; exact HB].
Qed.
(** the whole struct *)
Theorem adjacent_reads v l tn t w : adjacent_val v -> visible v -> as_adjacent tag content v = Some (VStruct ename l) ->
  name_text e sf true ename tn -> layout w -> items (entry field_key_text (repr e sf)) l t ->
  exists n, forall f, (n <= f)%nat -> tr e (de_adjacent tenv f tag content deny ename variants) false false (need (VStruct ename l))
    (tn ++ c_lp :: w ++ t ++ [c_rp]) anything v.
Proof.
  intros AV VS AA NM L IT. destruct (body_reads v l t w AV VS AA L IT) as (n & H). exists n. intros f LF. specialize (H f LF).
  unfold de_adjacent. cbn [need].
  refine (tr_bind_r e _ _ false false false _ _ _ _ None _ (tr_no_range e ename [tag; content] false _) _ _).
  - apply tr_get. intros s _ ->. cbn iota. eapply tr_named; [exact NM|now eexists|]. intros w0 L0 _.
    refine (tr_bind e _ _ false false false _ w0 _ solid _ tt _ (tr_ws e w0 false _ L0) _ _); [|intros; apply lp_solid].
    eapply tr_text; [eapply tr_D; [refine (tr_struct_after_name e ename _ false _ (w ++ t) [] _ (begins c_rp) H l_nil _); auto|now intros]|].
    unfold parens. texts.
  - intros r _. rewrite <- app_assoc. eapply name_no_range; [exact fok|exact NM].
Qed.
End Body.
End WithEnv.
