(** What whole documents are accepted: layout, attributes, a text in the
    grammar of [Accept], and layout. *)
From Coq Require Import String Ascii NArith ZArith Lia Bool List.
From Coq Require Import ZifyBool ZifyNat ZifyN.
From Verif Require Import Base Facts Value Data Parse De Span Wp EnvOk LexSafe DeSafe Layout LexWs Lit LexRead Attr Inv LexSound Repr Accept
  DocSafe DocRead Sound Keep.
Import ListNotations.
Open Scope N_scope.
Open Scope list_scope.
Open Scope m_scope.

Section S.
Context {E : Env} {X : XidOk E}.

(** ** Attributes *)
Lemma extension_meaning n x : exts_from_ident n = Some x -> extension_name n x.
Proof.
  unfold exts_from_ident. repeat match goal with |- context [str_eqb n ?w] => destruct (str_eqb n w) eqn:?Q;
    [apply str_eqb_eq in Q; subst n; intros H; injection H as <-; constructor|clear Q] end. discriminate.
Qed.
Lemma consume_spaced_ok T p s b s' : inv T s ->
  (b <- consume_str p ;; if b then skip_ws ;;; ret true else ret false) s = Ok b s' ->
  adv T s s' /\ if b then exists w, rest s = p ++ w ++ rest s' /\ lay w (rest s') else s' = s.
Proof.
  intros I H. apply bind_ok in H as (c & s1 & H1 & H). apply consume_str_ok with (T := T) in H1 as (A1 & Q1); [|exact I].
  destruct c.
  - apply bind_ok in H as (u & s2 & H2 & H). apply skip_ws_ok with (T := T) in H2 as (A2 & w & Q2 & L2); [|apply A1].
    apply ret_ok in H as [-> ->]. split; [eapply adv_trans; eassumption|]. exists w. rewrite Q1, Q2. auto.
  - apply ret_ok in H as [-> ->]. subst s1. auto.
Qed.
Lemma consume_all_two T p q s s' : inv T s -> p <> [] -> q <> [] -> consume_all [p; q] s = Ok true s' ->
  adv T s s' /\ exists w w', rest s = p ++ w ++ q ++ w' ++ rest s' /\ layout w /\ lay w' (rest s').
Proof.
  intros I NP NQ H. split; [eapply total_ok; [apply total_consume_all|exact I|exact H]|]. cbn [consume_all] in H.
  apply bind_ok in H as (b1 & s1 & H1 & H). apply consume_spaced_ok with (T := T) in H1 as (A1 & Q1); [|exact I].
  apply bind_ok in H as (b2' & s2' & H2 & H). apply bind_ok in H2 as (b2 & s2 & H2 & H3).
  apply consume_spaced_ok with (T := T) in H2 as (A2 & Q2); [|apply A1].
  apply bind_ok in H3 as (b3 & s3 & H3 & H4). apply ret_ok in H3 as [-> ->]. apply ret_ok in H4 as [-> ->].
  apply ret_ok in H as [Q ->]. destruct b1; [|discriminate]. destruct b2; [|discriminate].
  destruct Q1 as (w & Q1 & L1), Q2 as (w' & Q2 & L2). exists w, w'. split; [rewrite Q1, Q2; flat; reflexivity|].
  split; [|assumption]. eapply lay_solid; [exact L1|]. rewrite Q2. destruct q; [contradiction|discriminate].
Qed.
Lemma consume_all_three T p q r s s' : inv T s -> p <> [] -> q <> [] -> r <> [] -> consume_all [p; q; r] s = Ok true s' ->
  adv T s s' /\ exists w w' w'', rest s = p ++ w ++ q ++ w' ++ r ++ w'' ++ rest s' /\ layout w /\ layout w' /\ lay w'' (rest s').
Proof.
  intros I NP NQ NR H. split; [eapply total_ok; [apply total_consume_all|exact I|exact H]|].
  change (consume_all [p; q; r]) with (b <- (b <- consume_str p ;; if b then skip_ws ;;; ret true else ret false) ;; c <- consume_all [q; r] ;; ret (b && c)) in H.
  apply bind_ok in H as (b1 & s1 & H1 & H). apply consume_spaced_ok with (T := T) in H1 as (A1 & Q1); [|exact I].
  apply bind_ok in H as (b2 & s2 & H2 & H). apply ret_ok in H as [Q ->]. destruct b1; [|discriminate]. destruct b2; [|discriminate].
  apply consume_all_two with (T := T) in H2 as (A2 & w' & w'' & Q2 & L2 & L3); [|apply A1|assumption|assumption].
  destruct Q1 as (w & Q1 & L1). exists w, w', w''. split; [rewrite Q1, Q2; flat; reflexivity|].
  split; [|auto]. eapply lay_solid; [exact L1|]. rewrite Q2. destruct q; [contradiction|discriminate].
Qed.

(** an extension list, and the layout after it *)
Lemma extension_loop_ok T : forall fuel a s x s', inv T s -> extension_loop fuel a s = Ok x s' ->
  adv T s s' /\ exists l y, rest s = l ++ rest s' /\ x = exts_or a y /\ (rest s' <> [] -> ext_list l y).
Proof.
  induction fuel as [|f IH]; intros a s x s' I H; [discriminate|]. cbn [extension_loop] in H.
  apply bind_ok in H as (id & s1 & H1 & H). apply identifier_ok with (T := T) in H1 as (A1 & t & Q1 & L1); [|exact I].
  destruct (exts_from_ident id) as [ex|] eqn:EX; [|now apply fail_ok in H]. apply extension_meaning in EX. cbv zeta in H.
  apply bind_ok in H as (c & s2 & H2 & H). apply comma_ok with (T := T) in H2 as (A2 & tc & Q2 & C); [|apply A1].
  apply bind_ok in H as (more & s3 & H3 & H).
  assert (s3 = s2).
  { unfold check_ident_other_char in H3. apply bind_ok in H3 as (r & s4 & H4 & H3). apply src_ok in H4 as [-> ->].
    apply bind_ok in H3 as (r & s4 & H4 & H3). apply of_slice_ok in H4 as [_ ->]. now apply ret_ok in H3 as [_ ->]. }
  subst s3. assert (A12 : adv T s s2) by (eapply adv_trans; eassumption).
  destruct c; cbn [negb andb orb] in H.
  - destruct C as (w & w' & -> & L & L'). destruct more; cbn [negb] in H.
    + apply IH in H as (A3 & l & y & Q3 & -> & XL); [|apply A12]. split; [eapply adv_trans; eassumption|].
      exists (t ++ w ++ c_comma :: w' ++ l), (exts_or ex y). split; [rewrite Q1, Q2, Q3; flat; reflexivity|].
      split; [symmetry; apply exts_or_assoc|]. intros NE. eapply xl_more; eauto. eapply lay_solid; [exact L'|]. rewrite Q3.
      destruct l; [assumption|discriminate].
    + apply ret_ok in H as [-> ->]. split; [assumption|]. exists (t ++ w ++ c_comma :: w'), ex.
      split; [rewrite Q1, Q2; flat; reflexivity|]. split; [reflexivity|]. intros NE. eapply xl_comma; eauto. eapply lay_solid; eassumption.
  - destruct more; [now apply fail_ok in H|]. apply ret_ok in H as [-> ->]. split; [assumption|]. exists (t ++ tc), ex.
    split; [rewrite Q1, Q2; flat; reflexivity|]. split; [reflexivity|]. intros NE. eapply xl_last; eauto. eapply lay_solid; eassumption.
Qed.
Lemma ext_list_snoc l x w : ext_list l x -> layout w -> ext_list (l ++ w) x.
Proof.
  intros H L. induction H as [t n y w1 HI HN L1|t n y w1 w2 HI HN L1 L2|t n y w1 w2 l y' HI HN L1 L2 HL IH].
  - rewrite <- app_assoc. eapply xl_last; eauto. now apply layout_app.
  - replace ((t ++ w1 ++ c_comma :: w2) ++ w) with (t ++ w1 ++ c_comma :: w2 ++ w) by (flat; reflexivity).
    eapply xl_comma; eauto. now apply layout_app.
  - replace ((t ++ w1 ++ c_comma :: w2 ++ l) ++ w) with (t ++ w1 ++ c_comma :: w2 ++ (l ++ w)) by (flat; reflexivity).
    eapply xl_more; eauto.
Qed.

Lemma attribute_ok T s a s' : inv T s -> attribute s = Ok a s' ->
  adv T s s' /\ match a with
                | AttrNone => s' = s
                | AttrExts x => exists t w, rest s = t ++ w ++ rest s' /\ attr_text t x /\ lay w (rest s')
                | AttrIgnored => exists t w, rest s = t ++ w ++ rest s' /\ attr_text t exts_empty /\ lay w (rest s')
                end.
Proof.
  intros I H. split; [eapply total_ok; [apply total_attribute|exact I|exact H]|]. unfold attribute in H.
  apply bind_ok in H as (h & s1 & H1 & H). apply check_char_ok in H1 as [-> _]. destruct h; cbn [negb] in H.
  2:{ now apply ret_ok in H as [-> ->]. }
  apply bind_ok in H as (b & s1 & H1 & H). destruct b; [|now apply fail_ok in H]. cbn [negb] in H.
  apply consume_all_three with (T := T) in H1 as (A1 & w1 & w2 & w3 & Q1 & L1 & L2 & L3); [|exact I|discriminate..].
  apply bind_ok in H as (u & s2 & H2 & H). apply skip_ws_ok with (T := T) in H2 as (A2 & w4 & Q2 & L4); [|apply A1].
  rewrite Q2 in L3. assert (L34 := lay_app _ _ _ L3 L4).
  apply bind_ok in H as (en & s3 & H3 & H). apply consume_ident_ok with (T := T) in H3 as (A3 & Q3); [|apply A2]. destruct en.
  - rewrite Q3 in L34. apply lay_cons in L34.
    apply bind_ok in H as (u' & s4 & H4 & H). apply skip_ws_ok with (T := T) in H4 as (A4 & w5 & Q4 & L5); [|apply A3].
    apply bind_ok in H as (p & s5 & H5 & H). apply consume_str_ok with (T := T) in H5 as (A5 & Q5); [|apply A4].
    destruct p; [|now apply fail_ok in H]. cbn [negb] in H. rewrite Q5 in L5. apply lay_cons in L5.
    apply bind_ok in H as (u'' & s6 & H6 & H). apply skip_ws_ok with (T := T) in H6 as (A6 & w6 & Q6 & L6); [|apply A5].
    apply bind_ok in H as (x & s7 & H7 & H). unfold extension_list in H7. apply bind_ok in H7 as (r & s7' & H7' & H7).
    apply src_ok in H7' as [-> ->]. apply extension_loop_ok with (T := T) in H7 as (A7 & l & y & Q7 & QX & XL); [|apply A6].
    apply bind_ok in H as (u3 & s8 & H8 & H). apply skip_ws_ok with (T := T) in H8 as (A8 & w8 & Q8 & L8); [|apply A7].
    apply bind_ok in H as (c & s9 & H9 & H). destruct c; [|now apply fail_ok in H].
    apply consume_all_two with (T := T) in H9 as (A9 & w9 & w10 & Q9 & L9 & L10); [|apply A8|discriminate..].
    apply ret_ok in H as [-> ->].
    assert (x = y) by (rewrite QX; destruct y; reflexivity). subst y. clear QX.
    assert (N7 : rest s7 <> []) by (rewrite Q8, Q9; destruct w8; discriminate).
    rewrite Q9 in L8. apply lay_cons in L8.
    assert (L6' : layout w6) by (eapply lay_solid; [exact L6|]; rewrite Q7; destruct l; [assumption|discriminate]).
    exists ([c_hash] ++ w1 ++ [33] ++ w2 ++ [c_lb] ++ (w3 ++ w4) ++ s_enable ++ w5 ++ [c_lp] ++ w6 ++ (l ++ w8) ++ [c_rp] ++ w9 ++ [c_rb]), w10.
    split; [rewrite Q1, Q2, Q3, Q4, Q5, Q6, Q7, Q8, Q9; flat; reflexivity|]. split; [|assumption].
    apply at_enable; auto. apply ext_list_snoc; auto.
  - subst s3. apply bind_ok in H as (ty & s3 & H3 & H). apply consume_ident_ok with (T := T) in H3 as (A4 & Q3); [|apply A2].
    apply bind_ok in H as (sc & s4 & H4 & H). destruct sc; [|now apply fail_ok in H].
    assert (K : exists k, (k = s_type \/ k = s_schema) /\ inv T s4 /\ rest s2 = k ++ rest s4).
    { destruct ty.
      - apply ret_ok in H4 as [_ ->]. exists s_type. split; [auto|]. split; [apply A4|assumption].
      - subst s3. apply consume_ident_ok with (T := T) in H4 as (A5 & Q4); [|apply A2]. exists s_schema. split; [auto|]. split; [apply A5|assumption]. }
    destruct K as (k & HK & I4 & QK).
    assert (L34' : layout (w3 ++ w4)).
    { eapply lay_solid; [exact L34|]. rewrite QK. destruct HK as [-> | ->]; discriminate. }
    apply bind_ok in H as (u' & s5 & H5 & H). apply skip_ws_ok with (T := T) in H5 as (A5 & w5 & Q5 & L5); [|exact I4].
    apply bind_ok in H as (q & s6 & H6 & H). apply consume_str_ok with (T := T) in H6 as (A6 & Q6); [|apply A5].
    destruct q; [|now apply fail_ok in H]. cbn [negb] in H. rewrite Q6 in L5. apply lay_cons in L5.
    apply bind_ok in H as (u'' & s7 & H7 & H). apply skip_ws_ok with (T := T) in H7 as (A7 & w6 & Q7 & L6); [|apply A6].
    apply bind_ok in H as (x & s8 & H8 & H). assert (A8 := total_ok _ _ _ _ _ total_parse_string (adv_inv _ _ _ A7) H8).
    apply parse_string_sound in H8 as (t & Q8 & SL).
    assert (L6' : layout w6).
    { eapply lay_solid; [exact L6|]. rewrite Q8. destruct SL; discriminate. }
    apply bind_ok in H as (u3 & s9 & H9 & H). apply skip_ws_ok with (T := T) in H9 as (A9 & w7 & Q9 & L7); [|apply A8].
    apply bind_ok in H as (c & s10 & H10 & H). apply consume_str_ok with (T := T) in H10 as (A10 & Q10); [|apply A9].
    destruct c; [|now apply fail_ok in H]. rewrite Q10 in L7. apply lay_cons in L7. apply ret_ok in H as [-> ->].
    exists ([c_hash] ++ w1 ++ [33] ++ w2 ++ [c_lb] ++ (w3 ++ w4) ++ k ++ w5 ++ [c_eq] ++ w6 ++ t ++ w7 ++ [c_rb]), [].
    split; [rewrite Q1, Q2, QK, Q5, Q6, Q7, Q8, Q9, Q10; flat; reflexivity|]. split; [|apply lay_nil].
    eapply at_other; eauto.
Qed.

Lemma attr_loop_ok T : forall fuel s u s', inv T s -> attr_loop fuel s = Ok u s' ->
  inv T s' /\ lim s' = lim s /\ nt s' = nt s /\ exists a y, rest s = a ++ rest s' /\ ext s' = exts_or (ext s) y /\
  (rest s' <> [] -> attrs_text a y).
Proof.
  induction fuel as [|f IH]; intros s u s' I H; [discriminate|]. cbn [attr_loop] in H.
  apply bind_ok in H as (at0 & s1 & H1 & H). apply attribute_ok with (T := T) in H1 as (A1 & C); [|exact I]. destruct at0 as [|x|].
  - apply ret_ok in H as [_ ->]. subst s1. split; [assumption|]. split; [reflexivity|]. split; [reflexivity|].
    exists [], exts_empty. split; [reflexivity|]. split; [now rewrite exts_or_empty|]. intros _. constructor.
  - destruct C as (t & w & Q1 & AT & L1). apply bind_ok in H as (v & s2 & H2 & H). apply modify_ok in H2.
    assert (I2 : inv T s2) by (subst s2; apply A1). assert (R2 : rest s2 = rest s1) by (subst s2; reflexivity).
    apply bind_ok in H as (v' & s3 & H3 & H). apply skip_ws_ok with (T := T) in H3 as (A3 & w' & Q3 & L3); [|exact I2].
    apply IH in H as (I4 & HL & HN & a & y & Q4 & HE & AS); [|apply A3].
    split; [assumption|]. rewrite HL, HN. rewrite (adv_lim _ _ _ A3), (adv_nt _ _ _ A3).
    split; [subst s2; apply (adv_lim _ _ _ A1)|]. split; [subst s2; apply (adv_nt _ _ _ A1)|].
    exists (t ++ (w ++ w') ++ a), (exts_or x y). split; [rewrite Q1, <- R2, Q3, Q4; flat; reflexivity|].
    split.
    + rewrite HE, (adv_ext _ _ _ A3). subst s2. cbn [ext set_ext]. rewrite (adv_ext _ _ _ A1). symmetry. apply exts_or_assoc.
    + intros NE. constructor; auto. rewrite <- R2, Q3 in L1. eapply lay_solid; [apply lay_app; eassumption|].
      rewrite Q4. destruct a; [assumption|discriminate].
  - destruct C as (t & w & Q1 & AT & L1).
    apply bind_ok in H as (v' & s3 & H3 & H). apply skip_ws_ok with (T := T) in H3 as (A3 & w' & Q3 & L3); [|apply A1].
    apply IH in H as (I4 & HL & HN & a & y & Q4 & HE & AS); [|apply A3].
    split; [assumption|]. rewrite HL, HN. rewrite (adv_lim _ _ _ A3), (adv_nt _ _ _ A3).
    split; [apply (adv_lim _ _ _ A1)|]. split; [apply (adv_nt _ _ _ A1)|].
    exists (t ++ (w ++ w') ++ a), (exts_or exts_empty y). split; [rewrite Q1, Q3, Q4; flat; reflexivity|].
    split.
    + rewrite HE, (adv_ext _ _ _ A3), (adv_ext _ _ _ A1). f_equal. destruct y; reflexivity.
    + intros NE. constructor; auto. rewrite Q3 in L1. eapply lay_solid; [apply lay_app; eassumption|].
      rewrite Q4. destruct a; [assumption|discriminate].
Qed.
Lemma parser_new_ok text u s : parser_new (init_state text) = Ok u s ->
  inv text s /\ lim s = None /\ nt s = false /\ exists w a y, text = w ++ a ++ rest s /\ ext s = y /\
  (rest s <> [] -> layout w /\ attrs_text a y).
Proof.
  intros H. unfold parser_new in H. apply bind_ok in H as (v & s1 & H1 & H).
  apply skip_ws_ok with (T := text) in H1 as (A1 & w & Q1 & L1); [|apply inv_init].
  apply bind_ok in H as (r & s2 & H2 & H). apply src_ok in H2 as [-> ->].
  apply attr_loop_ok with (T := text) in H as (I & HL & HN & a & y & Q2 & HE & AS); [|apply A1].
  split; [assumption|]. rewrite HL, HN, (adv_lim _ _ _ A1), (adv_nt _ _ _ A1). split; [reflexivity|]. split; [reflexivity|].
  exists w, a, y. split; [|split].
  - change (rest (init_state text)) with text in Q1. rewrite Q1, Q2. reflexivity.
  - rewrite HE, (adv_ext _ _ _ A1). destruct y; reflexivity.
  - intros NE. split; [|auto]. eapply lay_solid; [exact L1|]. rewrite Q2. destruct a; [assumption|discriminate].
Qed.

(** ** Values are not empty *)
Lemma ident_lit_nonempty t n : ident_lit t n -> t <> [].
Proof. intros []; discriminate. Qed.
Lemma int_number_nonempty base t z : int_number base t z -> t <> [].
Proof. intros []; [discriminate|destruct s; discriminate..]. Qed.
Lemma int_text_nonempty k z t : int_text k z t -> t <> [].
Proof.
  assert (L : forall u z, int_lit u z -> u <> []).
  { intros u y [sg neg p base ds m _ _ IN]. apply int_number_nonempty in IN. destruct sg; [|discriminate]. destruct p; [|discriminate]. exact IN. }
  intros [u IL|u IL|u b _ BL _].
  - eauto.
  - apply L in IL. destruct u; [contradiction|discriminate].
  - destruct BL; discriminate.
Qed.
Lemma float_text_nonempty o k b t : float_text o k b t -> t <> [].
Proof.
  intros [w f W _|w f W _ _|u v (N & _) _|u v (N & _) _ _].
  - destruct W; discriminate.
  - destruct W; discriminate.
  - assumption.
  - destruct u; [contradiction|discriminate].
Qed.
Lemma num_lit_nonempty n t : num_lit n t -> t <> [].
Proof.
  intros [w f [Q|Q]|k w f [Q|Q]|k b u F|k z u _ I]; try (injection Q as -> _; discriminate).
  - eapply float_text_nonempty; eassumption.
  - eapply int_text_nonempty; eassumption.
Qed.
Lemma atom_nonempty x t : atom x t -> t <> [].
Proof.
  intros [b| | |u n I|b u B|n u N|a b o ta tb O NA NB|a ta NA|b o tb O NB| |s u S|c u C]; try discriminate.
  - destruct b; discriminate.
  - eapply ident_lit_nonempty; eassumption.
  - destruct B; discriminate.
  - eapply num_lit_nonempty; eassumption.
  - apply num_lit_nonempty in NA. destruct ta; [contradiction|discriminate].
  - apply num_lit_nonempty in NA. destruct ta; [contradiction|discriminate].
  - destruct O as [-> | ->]; discriminate.
  - destruct S; discriminate.
  - destruct C; discriminate.
Qed.
Lemma paren_nonempty t t' : paren false t t' -> t' <> [].
Proof. intros H. inversion H. discriminate. Qed.
Lemma app_nonempty_r (a b : str) : b <> [] -> a ++ b <> [].
Proof. destruct a; [auto|discriminate]. Qed.
Lemma app_nonempty_l (a b : str) : a <> [] -> a ++ b <> [].
Proof. destruct a; [contradiction|discriminate]. Qed.
Lemma vacc_nonempty e b x t d : vacc e b x t d -> b = false -> t <> [].
Proof.
  intros H. induction H; intros Q; try discriminate; try (apply app_nonempty_r; eapply paren_nonempty; eassumption).
  eapply atom_nonempty; eassumption.
Qed.
Lemma leaf_nonempty T v t : leaf T v t -> t <> [].
Proof.
  intros [b|k z u _ _ I|k b u F|c u C|s u S|b u B].
  - destruct b; discriminate.
  - eapply int_text_nonempty; eassumption.
  - eapply float_text_nonempty; eassumption.
  - destruct C; discriminate.
  - destruct S; discriminate.
  - destruct B; discriminate.
Qed.
Lemma range_syntax_nonempty name fs ns t : range_syntax name fs ns t -> t <> [].
Proof.
  intros [a b ta tb A1 B1|f a b ta tb _ A1 B1|a ta A1|b tb B1|f b tb _ B1]; try discriminate;
    apply num_lit_nonempty in A1; now apply app_nonempty_l.
Qed.
Lemma acc_nonempty e tenv b T v t d : acc e tenv b T v t d -> b = false -> t <> [].
Proof.
  intros H. induction H; intros Q; try discriminate; subst; cbn [head_text] in *;
    try (repeat apply app_nonempty_r; discriminate);
    try (repeat apply app_nonempty_r; eapply paren_nonempty; eassumption).
  - eapply leaf_nonempty; eassumption.
  - eapply ident_lit_nonempty; eassumption.
  - auto.
  - auto.
  - eapply range_syntax_nonempty; eassumption.
  - apply app_nonempty_r. eapply ident_lit_nonempty; eassumption.
  - eapply vacc_nonempty; eauto.
  - eapply vacc_nonempty; eauto.
  - apply app_nonempty_r, app_nonempty_l. eapply vacc_nonempty; eauto.
  - auto.
Qed.

(** ** Documents *)
Theorem document_sound tenv o f T text v : options_from_str o (de_ty tenv f T) text = RValue v ->
  exists w a x t w' d, text = w ++ a ++ t ++ w' /\ layout w /\ attrs_text a x /\
    acc (exts_or x (o_exts o)) tenv false T v t d /\ final_layout w' /\ within d (o_limit o).
Proof.
  intros H. apply typed_whole in H as (s & H & _ & FL). unfold head in H.
  apply bind_ok in H as (u & s1 & H1 & H). assert (RD := parser_new_ready _ _ _ H1). apply parser_new_ok in H1 as (I1 & HL & HN & w & a & y & QT & HE & HA).
  apply bind_ok in H as (u' & s2 & H2 & H). apply modify_ok in H2.
  destruct (proj2 (de_ty_ok (exts_or y (o_exts o)) tenv f false T) text s2 v s) as (D & t & w' & d & Q & L & HV & HD); [subst s2; exact I1|subst s2; exact RD|subst s2; cbn [ext set_ext set_lim]; now rewrite HE|subst s2; exact HN|exact H|].
  subst s2. cbn [rest set_lim set_ext lim] in *.
  assert (NE : t <> []) by (eapply acc_nonempty; eauto).
  destruct HA as [LW AT]; [rewrite Q; now apply app_nonempty_l|].
  exists w, a, y, t, (w' ++ rest s), d. split; [rewrite QT, Q; flat; reflexivity|].
  split; [assumption|]. split; [assumption|]. split; [assumption|]. split; [|assumption].
  destruct L as [L|[R F]].
  - destruct FL as [F|(w1 & t1 & L1 & NN & Q1)]; [left; now apply layout_app|]. right. exists (w' ++ w1), t1.
    split; [now apply layout_app|]. split; [assumption|]. rewrite Q1. now rewrite <- app_assoc.
  - now rewrite R, app_nil_r.
Qed.
End S.
