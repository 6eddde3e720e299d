(** Reading of attributes and of whole documents. *)
From Coq Require Import String Ascii NArith ZArith Lia Bool List.
From Coq Require Import ZifyBool ZifyNat ZifyN.
From Verif Require Import Base Facts Value Data Parse De Span Wp EnvOk LexSafe DeSafe Layout LexWs Lit Attr LexRead DocSafe.
Import ListNotations.
Open Scope N_scope.
Open Scope list_scope.
Open Scope m_scope.

Lemma exts_or_assoc a b c : exts_or a (exts_or b c) = exts_or (exts_or a b) c.
Proof. unfold exts_or. cbn. now rewrite !orb_assoc. Qed.
Lemma exts_or_comm a b : exts_or a b = exts_or b a.
Proof. unfold exts_or. f_equal; apply orb_comm. Qed.
Lemma exts_or_idem a : exts_or a a = a.
Proof. destruct a. unfold exts_or. cbn. now rewrite !orb_diag. Qed.
Lemma exts_or_empty a : exts_or a exts_empty = a.
Proof. destruct a. unfold exts_or. cbn. now rewrite !orb_false_r. Qed.
Lemma exts_empty_or a : exts_or exts_empty a = a.
Proof. now destruct a. Qed.

Lemma extension_name_iff n e : extension_name n e <-> exts_from_ident n = Some e.
Proof.
  split.
  - destruct 1; reflexivity.
  - unfold exts_from_ident.
    destruct (str_eqb n s_unwrap_newtypes) eqn:E1; [apply str_eqb_eq in E1 as ->; intros [= <-]; constructor|].
    destruct (str_eqb n s_implicit_some) eqn:E2; [apply str_eqb_eq in E2 as ->; intros [= <-]; constructor|].
    destruct (str_eqb n s_unwrap_variant_newtypes) eqn:E3; [apply str_eqb_eq in E3 as ->; intros [= <-]; constructor|].
    destruct (str_eqb n s_explicit_struct_names) eqn:E4; [apply str_eqb_eq in E4 as ->; intros [= <-]; constructor|].
    discriminate.
Qed.

Lemma reads_bind_l {A B} (m : M A) (k : A -> M B) t (D1 D2 : str -> Prop) a b :
  reads m t D1 a -> reads (k a) [] D2 b -> (forall r, D2 r -> D1 r) -> reads (bind m k) t D2 b.
Proof. intros H1 H2 HD. rewrite <- (app_nil_r t). eapply reads_bind; eassumption. Qed.

Section WithEnv.
Context {E : Env} {X : XidOk E}.

Lemma reads_ws w : layout w -> reads skip_ws w solid tt.
Proof.
  intros L T s r I Hs D. eapply wp_conseq; [eapply wp_skip_ws; eassumption| |auto].
  intros [] s' [H1 H2]. auto.
Qed.
Lemma reads_consume_ident w : reads (consume_ident w) w (starts_not xid_continue) true.
Proof.
  intros T s r I Hs D. eapply wp_ok; [apply (consume_ident_true w s r Hs D)|].
  split; [reflexivity|]. split; [reflexivity|]. apply adv_moved; [assumption|]. rewrite Hs. apply suf_app.
Qed.
Lemma reads_consume_ident_false w : reads (consume_ident w) [] (fun r => ident_at w r = false) false.
Proof.
  intros T s r I Hs D. eapply wp_ok; [apply consume_ident_false; now rewrite Hs|].
  split; [reflexivity|]. split; [assumption|]. now apply adv_refl.
Qed.
Lemma reads_check_char c : reads (check_char c) [] (fun r => exists r', r = c :: r') true.
Proof.
  intros T s r I Hs [r' ->]. eapply wp_ok; [unfold check_char; rewrite Hs; cbn [app]; rewrite N.eqb_refl; reflexivity|].
  split; [reflexivity|]. split; [assumption|]. now apply adv_refl.
Qed.
Lemma reads_check_char_false c : reads (check_char c) [] (starts_not (fun d => d =? c)) false.
Proof.
  intros T s r I Hs D. eapply wp_ok; [unfold check_char; rewrite Hs; cbn [app]; destruct r; [reflexivity|cbn in D; rewrite D; reflexivity]|].
  split; [reflexivity|]. split; [assumption|]. now apply adv_refl.
Qed.

(** layout followed by punctuation or nothing *)
Lemma solid_char c r : is_ws_char c = false -> c <> c_slash -> solid (c :: r).
Proof. intros. split; assumption. Qed.
(** what layout can begin with *)
Lemma layout_head w : layout w -> w = [] \/ exists c w', w = c :: w' /\ (is_ws_char c = true \/ c = c_slash).
Proof. destruct 1; [now left|right..]; eauto. Qed.
Lemma layout_ident_end w r : layout w -> ident_end r -> ident_end (w ++ r).
Proof.
  intros L D. destruct (layout_head w L) as [->|(c & w' & -> & H)]; [exact D|]. cbn [app ident_end].
  assert (XC : xid_continue c = false).
  { destruct H as [H| ->]; [now apply ws_not_xid|]. now rewrite xid_continue_ascii. }
  unfold is_ident_raw_char. rewrite XC. unfold is_ws_char in H. lia.
Qed.
Lemma layout_xid_end w r : layout w -> starts_not xid_continue r -> starts_not xid_continue (w ++ r).
Proof.
  intros L D. destruct (layout_head w L) as [->|(c & w' & -> & H)]; [exact D|]. cbn [app starts_not].
  destruct H as [H| ->]; [now apply ws_not_xid|]. now rewrite xid_continue_ascii.
Qed.
Lemma ident_end_punct c r : In c [c_lp; c_rp; c_lb; c_rb; c_lc; c_rc; c_comma; c_colon; c_eq] -> ident_end (c :: r).
Proof.
  intros H. cbn [ident_end]. assert (XC : xid_continue c = false).
  { rewrite xid_continue_ascii; [|cbn in H; lia]. unfold is_alpha, is_digit. cbn in H. lia. }
  unfold is_ident_raw_char. rewrite XC. cbn in H. lia.
Qed.
Lemma xid_end_punct c r : In c [c_lp; c_rp; c_lb; c_rb; c_lc; c_rc; c_comma; c_colon; c_eq] -> starts_not xid_continue (c :: r).
Proof.
  intros H. cbn [starts_not]. rewrite xid_continue_ascii; [|cbn in H; lia]. unfold is_alpha, is_digit. cbn in H. lia.
Qed.

Lemma reads_comma w w' : layout w -> layout w' -> reads comma (w ++ c_comma :: w') solid true.
Proof.
  intros L L'. unfold comma.
  refine (reads_bind _ _ w (c_comma :: w') solid solid tt _ (reads_ws w L) _ _); [|intros; split; [reflexivity|discriminate]].
  refine (reads_bind _ _ [c_comma] w' anything solid true _ (reads_consume_char _) _ _); [|now intros].
  eapply reads_bind_l; [apply (reads_ws w' L')|apply reads_ret|auto].
Qed.
Lemma reads_no_comma w : layout w -> reads comma w (fun r => solid r /\ starts_not (fun d => d =? c_comma) r) false.
Proof.
  intros L. unfold comma.
  eapply reads_bind_l; [apply (reads_ws w L)| |now intros r [? ?]].
  eapply reads_bind_l; [apply reads_consume_char_false|apply reads_ret|now intros r [? ?]].
Qed.

(** ** Extension lists *)
Lemma ident_lit_solid t n r : ident_lit t n -> solid (t ++ r).
Proof.
  destruct 1 as [c n F1 F2|n NE F]; cbn [app solid].
  - assert (H := first_continue c F1). destruct (is_ws_char c) eqn:W.
    + rewrite (ws_not_xid c W) in H. discriminate.
    + split; [reflexivity|]. intros ->. rewrite xid_continue_ascii in H by reflexivity. discriminate.
  - split; [reflexivity|discriminate].
Qed.
Lemma ident_lit_head t n r : ident_lit t n -> exists c t', t ++ r = c :: t' /\ xid_continue c = true.
Proof.
  destruct 1 as [c n F1 F2|n NE F]; cbn [app]; eexists _, _; (split; [reflexivity|]).
  - now apply first_continue.
  - now rewrite xid_continue_ascii.
Qed.
Lemma ext_list_head l e r : ext_list l e -> solid (l ++ r) /\ exists c t', l ++ r = c :: t' /\ xid_continue c = true.
Proof.
  destruct 1; rewrite <- app_assoc; (split; [eapply ident_lit_solid|eapply ident_lit_head]; eassumption).
Qed.
Lemma ext_list_length l e : ext_list l e -> (1 <= length l)%nat.
Proof.
  intros H. destruct (ext_list_head l e [] H) as [_ (c & t & Q & _)]. rewrite app_nil_r in Q. rewrite Q. cbn. lia.
Qed.

Lemma check_other_0 s : check_ident_other_char 0 s = Ok (match rest s with [] => false | c :: _ => xid_continue c end) s.
Proof. unfold check_ident_other_char, bind, src, of_slice. rewrite bdrop_0. reflexivity. Qed.

Definition close_paren (r : str) : Prop := exists r', r = c_rp :: r'.
Lemma close_paren_solid r : close_paren r -> solid r.
Proof. intros [r' ->]. split; [reflexivity|discriminate]. Qed.
Lemma reads_extension_loop l e : ext_list l e -> forall f acc, (length l <= f)%nat ->
  reads (extension_loop f acc) l close_paren (exts_or acc e).
Proof.
  induction 1 as [t n e w HI HN L|t n e w w' HI HN L L'|t n e w w' l e' HI HN L L' HL IH]; intros f acc F;
    assert (LT : (1 <= length t)%nat) by (destruct HI; cbn; lia);
    (destruct f as [|f]; [rewrite app_length in F; lia|]); cbn [extension_loop];
    intros T s r I Hs D; rewrite <- app_assoc in Hs; apply extension_name_iff in HN.
  - apply wp_bind. eapply wp_reads; [apply (reads_identifier _ _ HI)|exact I|exact Hs| |].
    { apply layout_ident_end; [assumption|]. destruct D as [r' ->]. apply ident_end_punct. cbn. tauto. }
    intros s1 E1 A1. rewrite HN. apply wp_bind.
    eapply wp_reads; [apply (reads_no_comma w L)|apply A1|exact E1| |].
    { destruct D as [r' ->]. split; [split; [reflexivity|discriminate]|reflexivity]. }
    intros s2 E2 A2. eapply wp_bind_ok; [apply check_other_0|]. rewrite E2. destruct D as [r' ->].
    rewrite xid_continue_ascii by reflexivity. cbn. apply wp_ret.
    split; [reflexivity|]. split; [assumption|]. eapply adv_trans; eassumption.
  - apply wp_bind. eapply wp_reads; [apply (reads_identifier _ _ HI)|exact I|exact Hs| |].
    { rewrite <- app_assoc. apply layout_ident_end; [assumption|]. apply ident_end_punct. cbn. tauto. }
    intros s1 E1 A1. rewrite HN. apply wp_bind.
    eapply wp_reads; [apply (reads_comma w w' L L')|apply A1|exact E1|now apply close_paren_solid|].
    intros s2 E2 A2. eapply wp_bind_ok; [apply check_other_0|]. rewrite E2. destruct D as [r' ->].
    rewrite xid_continue_ascii by reflexivity. cbn. apply wp_ret.
    split; [reflexivity|]. split; [assumption|]. eapply adv_trans; eassumption.
  - apply wp_bind. rewrite <- app_assoc in Hs. cbn [app] in Hs. rewrite <- app_assoc in Hs.
    eapply wp_reads; [apply (reads_identifier _ _ HI)|exact I|exact Hs| |].
    { apply layout_ident_end; [assumption|]. apply ident_end_punct. cbn. tauto. }
    intros s1 E1 A1. rewrite HN. apply wp_bind.
    destruct (ext_list_head l e' r HL) as [SO (c & t' & HD & XC)].
    eapply wp_reads; [apply (reads_comma w w' L L')|apply A1| |exact SO|].
    { rewrite E1, <- app_assoc. reflexivity. }
    intros s2 E2 A2. eapply wp_bind_ok; [apply check_other_0|]. rewrite E2, HD, XC. cbn.
    eapply wp_reads; [apply (IH f (exts_or acc e))|apply A2|exact E2|exact D|].
    { rewrite !app_length in F. cbn [length] in F. rewrite app_length in F. lia. }
    intros s3 E3 A3. split; [symmetry; apply exts_or_assoc|]. split; [assumption|].
    eapply adv_trans; [eassumption|]. eapply adv_trans; eassumption.
Qed.
Lemma reads_extension_list l e : ext_list l e -> reads extension_list l close_paren e.
Proof.
  intros H T s r I Hs D. unfold extension_list. eapply wp_bind_ok; [reflexivity|].
  eapply wp_reads; [apply (reads_extension_loop l e H)|exact I|exact Hs|exact D|].
  { rewrite Hs, app_length. lia. }
  intros s' E' A'. rewrite exts_empty_or. auto.
Qed.

Lemma bad_ext_head l b : bad_ext_list l b -> solid l /\ exists c t', l = c :: t' /\ xid_continue c = true.
Proof. destruct 1; (split; [eapply ident_lit_solid|eapply ident_lit_head]; eassumption). Qed.
Lemma bad_extension_loop l b : bad_ext_list l b -> forall f acc T s, (length l <= f)%nat -> inv T s -> rest s = l ->
  wp (extension_loop f acc) (fun _ _ => False) (fun e _ => e = ENoSuchExtension b) s.
Proof.
  induction 1 as [t n r HI HN D|t n e w w' l b HI HN L L' HL IH]; intros f acc T s F I Hs;
    assert (LT : (1 <= length t)%nat) by (destruct HI; cbn; lia);
    (destruct f as [|f]; [rewrite app_length in F; lia|]); cbn [extension_loop]; apply wp_bind.
  - eapply wp_reads; [apply (reads_identifier _ _ HI)|exact I|exact Hs|exact D|]. intros s1 E1 A1.
    destruct (exts_from_ident n) as [e|] eqn:Q; [apply extension_name_iff in Q; now apply HN in Q|].
    apply wp_fail. reflexivity.
  - apply extension_name_iff in HN.
    eapply wp_reads; [apply (reads_identifier _ _ HI)|exact I|exact Hs| |].
    { apply layout_ident_end; [assumption|]. apply ident_end_punct. cbn. tauto. }
    intros s1 E1 A1. rewrite HN. apply wp_bind.
    destruct (bad_ext_head l b HL) as [SO (c & t' & HD & XC)].
    eapply wp_reads; [apply (reads_comma w w' L L')|apply A1| |exact SO|].
    { rewrite E1, <- app_assoc. reflexivity. }
    intros s2 E2 A2. eapply wp_bind_ok; [apply check_other_0|]. rewrite E2, HD, XC. cbn.
    eapply IH; [|apply A2|exact E2].
    rewrite !app_length in F. cbn [length] in F. rewrite app_length in F. lia.
Qed.

(** ** Attributes *)
Lemma reads_consume_nil : reads (consume_all []) [] solid true.
Proof. apply reads_ret. Qed.
Lemma reads_consume_cons p w l t : layout w -> reads (consume_all l) t solid true ->
  (forall r, solid r -> solid (t ++ r)) -> reads (consume_all (p :: l)) (p ++ w ++ t) solid true.
Proof.
  intros L H HD. cbn [consume_all]. rewrite app_assoc.
  refine (reads_bind _ _ (p ++ w) t solid solid true true _ _ HD).
  - refine (reads_bind _ _ p w anything solid true true (reads_consume_str _) _ _); [|now intros].
    eapply reads_bind_l; [apply (reads_ws w L)|apply reads_ret|auto].
  - eapply reads_bind_l; [exact H|apply reads_ret|auto].
Qed.
Lemma solid_cons c r : is_ws_char c = false -> c <> c_slash -> solid (c :: r).
Proof. now split. Qed.
Ltac solid_punct := intros; cbn [app]; apply solid_cons; [reflexivity|discriminate].

Lemma reads_hash_bang w1 w2 w3 : layout w1 -> layout w2 -> layout w3 ->
  reads (consume_all [[c_hash]; [33]; [c_lb]]) ([c_hash] ++ w1 ++ [33] ++ w2 ++ [c_lb] ++ w3) solid true.
Proof.
  intros L1 L2 L3. apply reads_consume_cons; [assumption| |solid_punct].
  apply reads_consume_cons; [assumption| |solid_punct].
  rewrite <- (app_nil_r w3). apply reads_consume_cons; [assumption|apply reads_consume_nil|auto].
Qed.
Lemma reads_close_attr w w' : layout w -> layout w' ->
  reads (consume_all [[c_rp]; [c_rb]]) ([c_rp] ++ w ++ [c_rb] ++ w') solid true.
Proof.
  intros L L'. apply reads_consume_cons; [assumption| |solid_punct].
  rewrite <- (app_nil_r w'). apply reads_consume_cons; [assumption|apply reads_consume_nil|auto].
Qed.
Lemma reads_text {A} (m : M A) t t' D a : t = t' -> reads m t D a -> reads m t' D a.
Proof. now intros ->. Qed.

Definition attr_result (other : bool) (e : exts) : attr := if other then AttrIgnored else AttrExts e.
(** an attribute together with some layout after it *)
Lemma reads_attribute t e w : attr_text t e -> layout w -> exists other w' w'', (other = true -> e = exts_empty) /\
  w = w' ++ w'' /\ layout w'' /\ reads attribute (t ++ w') (if other then anything else solid) (attr_result other e) /\
  (other = false -> w'' = []).
Proof.
  intros H LW.
  destruct H as [w1 w2 w3 w4 w5 l e w6 L1 L2 L3 L4 L5 L6 HL|w1 w2 w3 k w4 w5 t str w6 L1 L2 L3 L4 L5 L6 HK HS].
  - exists false, w, []. split; [discriminate|]. split; [now rewrite app_nil_r|]. split; [constructor|].
    split; [|reflexivity]. unfold attribute.
    refine (reads_bind _ _ [] _ (fun r => exists r', r = c_hash :: r') solid true _ (reads_check_char _) _ _);
      [|intros; cbn [app]; eauto]. cbn [negb].
    apply reads_text with (([c_hash] ++ w1 ++ [33] ++ w2 ++ [c_lb] ++ w3) ++ s_enable ++ w4 ++ [c_lp] ++ w5 ++ l ++ [c_rp] ++ w6 ++ [c_rb] ++ w);
      [fold (@app char); do 8 (cbn [app]; rewrite <- ?app_assoc); reflexivity|].
    refine (reads_bind _ _ _ _ solid solid true _ (reads_hash_bang w1 w2 w3 L1 L2 L3) _ _); [|solid_punct]. cbn [negb].
    refine (reads_bind _ _ [] _ solid solid tt _ (reads_ws [] l_nil) _ _); [|solid_punct].
    refine (reads_bind _ _ s_enable _ (starts_not xid_continue) solid true _ (reads_consume_ident _) _ _);
      [|intros; rewrite <- app_assoc; apply layout_xid_end; [assumption|apply xid_end_punct; cbn; tauto]].
    refine (reads_bind _ _ w4 _ solid solid tt _ (reads_ws w4 L4) _ _); [|solid_punct].
    refine (reads_bind _ _ [c_lp] _ anything solid true _ (reads_consume_str _) _ _); [|now intros]. cbn [negb].
    refine (reads_bind _ _ w5 _ solid solid tt _ (reads_ws w5 L5) _ _);
      [|intros; rewrite <- app_assoc; eapply ext_list_head; eassumption].
    refine (reads_bind _ _ l _ close_paren solid e _ (reads_extension_list l e HL) _ _); [|intros; eexists; reflexivity].
    refine (reads_bind _ _ [] _ solid solid tt _ (reads_ws [] l_nil) _ _); [|solid_punct].
    eapply reads_bind_l; [apply (reads_close_attr w6 w L6 LW)|apply reads_ret|auto].
  - exists true, [], w. split; [reflexivity|]. split; [reflexivity|]. split; [assumption|].
    split; [|discriminate]. rewrite app_nil_r. unfold attribute.
    refine (reads_bind _ _ [] _ (fun r => exists r', r = c_hash :: r') anything true _ (reads_check_char _) _ _);
      [|intros; cbn [app]; eauto]. cbn [negb].
    apply reads_text with (([c_hash] ++ w1 ++ [33] ++ w2 ++ [c_lb] ++ w3) ++ k ++ w4 ++ [c_eq] ++ w5 ++ t ++ w6 ++ [c_rb]);
      [fold (@app char); do 8 (cbn [app]; rewrite <- ?app_assoc); reflexivity|].
    refine (reads_bind _ _ _ _ solid anything true _ (reads_hash_bang w1 w2 w3 L1 L2 L3) _ _);
      [|destruct HK as [-> | ->]; solid_punct]. cbn [negb].
    refine (reads_bind _ _ [] _ solid anything tt _ (reads_ws [] l_nil) _ _); [|destruct HK as [-> | ->]; solid_punct].
    refine (reads_bind _ _ [] _ (fun r => ident_at s_enable r = false) anything false _ (reads_consume_ident_false _) _ _);
      [|destruct HK as [-> | ->]; reflexivity].
    assert (XE : forall r, anything r -> starts_not xid_continue ((w4 ++ [c_eq] ++ w5 ++ t ++ w6 ++ [c_rb]) ++ r)).
    { intros; rewrite <- app_assoc; apply layout_xid_end; [assumption|apply xid_end_punct; cbn; tauto]. }
    assert (TL : reads (skip_ws ;;; q <- consume_str [c_eq] ;;
          if negb q then fail EExpectedAttribute
          else
            skip_ws ;;;
            parse_string ;;;
            skip_ws ;;;
            c <- consume_str [c_rb] ;;
            if c then ret AttrIgnored else fail EExpectedAttributeEnd)
       (w4 ++ [c_eq] ++ w5 ++ t ++ w6 ++ [c_rb]) anything AttrIgnored).
    { refine (reads_bind _ _ w4 _ solid anything tt _ (reads_ws w4 L4) _ _); [|solid_punct].
      refine (reads_bind _ _ [c_eq] _ anything anything true _ (reads_consume_str _) _ _); [|now intros]. cbn [negb].
      refine (reads_bind _ _ w5 _ solid anything tt _ (reads_ws w5 L5) _ _); [|destruct HS; solid_punct].
      refine (reads_bind _ _ t _ anything anything str _ (reads_string _ _ HS) _ _); [|now intros].
      refine (reads_bind _ _ w6 _ solid anything tt _ (reads_ws w6 L6) _ _); [|solid_punct].
      eapply reads_bind_l; [apply (reads_consume_str [c_rb])|apply reads_ret|now intros]. }
    destruct HK as [-> | ->].
    + refine (reads_bind _ _ s_type _ (starts_not xid_continue) anything true _ (reads_consume_ident _) _ XE).
      refine (reads_bind _ _ [] _ anything anything true _ (reads_ret _ _) _ _); [|now intros]. exact TL.
    + refine (reads_bind _ _ [] _ (fun r => ident_at s_type r = false) anything false _ (reads_consume_ident_false _) _ _);
        [|reflexivity].
      refine (reads_bind _ _ s_schema _ (starts_not xid_continue) anything true _ (reads_consume_ident _) _ XE). exact TL.
Qed.

(** the state from which a value is read *)
Definition ready (T : str) (e : exts) (body : str) (s s' : st) : Prop :=
  inv T s' /\ rest s' = body /\ ext s' = exts_or (ext s) e /\
  nt s' = nt s /\ lim s' = lim s /\ last_id s' = last_id s.
Lemma attr_text_head t e r : attr_text t e -> exists t', t ++ r = c_hash :: t'.
Proof. destruct 1; cbn [app]; eauto. Qed.
Lemma attr_text_length t e : attr_text t e -> (1 <= length t)%nat.
Proof. intros H. destruct (attr_text_head _ _ [] H) as [t' Q]. rewrite app_nil_r in Q. rewrite Q. cbn. lia. Qed.
Lemma attrs_solid a e r : attrs_text a e -> solid r -> solid (a ++ r).
Proof.
  destruct 1 as [|t e w a e' H _ _]; intros V; [exact V|]. rewrite <- app_assoc.
  destruct (attr_text_head t e ((w ++ a) ++ r) H) as [t' ->]. split; [reflexivity|discriminate].
Qed.
(** the loop passes over the attributes and goes on *)
Lemma wp_attrs a e : attrs_text a e -> forall f T s body Q R, (length a <= f)%nat -> inv T s -> rest s = a ++ body ->
  solid body ->
  (forall s' f', ready T e body s s' -> (f - length a <= f')%nat -> wp (attr_loop f') Q R s') -> wp (attr_loop f) Q R s.
Proof.
  induction 1 as [|t e w a e' HT L HA IH]; intros f T s body Q R F I Hs V K.
  - apply K; [|cbn [length]; lia]. unfold ready. rewrite exts_or_empty. tauto.
  - assert (LT := attr_text_length t e HT).
    destruct f as [|f]; [rewrite app_length in F; lia|]; cbn [attr_loop].
    destruct (reads_attribute t e w HT L) as (oth & w' & w'' & HO & -> & L'' & HR & HE). apply wp_bind.
    assert (SO : solid (a ++ body)) by (eapply attrs_solid; eassumption).
    assert (W : forall s1, rest s1 = w'' ++ a ++ body -> inv T s1 -> ext s1 = exts_or (ext s) e -> nt s1 = nt s ->
       lim s1 = lim s -> last_id s1 = last_id s -> wp (skip_ws ;;; attr_loop f) Q R s1).
    { intros s1 E1 I1 X1 N1 L1 D1. apply wp_bind. eapply wp_reads; [apply (reads_ws w'' L'')|exact I1|exact E1|exact SO|].
      intros s2 E2 (I2 & _ & K2). unfold kept in K2.
      apply (IH f T s2 body); [rewrite !app_length in F; lia|assumption|assumption|assumption|].
      intros s3 f3. unfold ready. intros (H1 & H2 & H3 & H4 & H5 & H6) F3. apply K.
      - unfold ready. rewrite exts_or_assoc. split; [assumption|]. split; [assumption|].
        split; [|split; [|split]]; intuition congruence.
      - rewrite !app_length. lia. }
    eapply wp_reads; [exact HR|exact I| | |].
    + rewrite Hs, <- !app_assoc. reflexivity.
    + destruct oth; [exact Logic.I|]. rewrite (HE eq_refl). exact SO.
    + intros s1 E1 (I1 & _ & K1). unfold kept in K1. destruct oth; cbn [attr_result].
      * apply W; try tauto. rewrite (HO eq_refl), exts_or_empty. tauto.
      * apply wp_bind, wp_modify. apply W; cbn; try tauto. f_equal. tauto.
Qed.
Lemma attr_loop_done f T s : inv T s -> value_start (rest s) -> (1 <= f)%nat -> attr_loop f s = Ok tt s.
Proof.
  intros I [_ V] F. destruct f as [|f]; [lia|]. cbn [attr_loop]. unfold attribute, bind, check_char.
  replace (match rest s with [] => false | d :: _ => d =? c_hash end) with false; [reflexivity|].
  destruct (rest s) as [|c b]; [reflexivity|]. symmetry. now apply N.eqb_neq.
Qed.
Lemma wp_parser_new w a e body T s : layout w -> attrs_text a e -> value_start body -> inv T s ->
  rest s = w ++ a ++ body ->
  wp parser_new (fun _ s' => ready T e body s s') (fun _ _ => False) s.
Proof.
  intros L HA V I Hs. assert (SO : solid (a ++ body)) by (eapply attrs_solid; [eassumption|apply V]).
  unfold parser_new. apply wp_bind. eapply wp_reads; [apply (reads_ws w L)|exact I|exact Hs|exact SO|].
  intros s1 E1 (I1 & _ & K1). eapply wp_bind_ok; [reflexivity|].
  apply (wp_attrs a e HA _ T s1 body); [rewrite E1, app_length; lia|assumption|assumption|apply V|].
  intros s2 f2 R2 F2. eapply wp_ok; [eapply attr_loop_done|].
  - apply R2.
  - destruct R2 as (_ & -> & _). exact V.
  - rewrite E1, app_length in F2. lia.
  - unfold ready, kept in *. intuition congruence.
Qed.
(** an unknown extension *)
Lemma wp_parser_new_bad w a e w1 w2 w3 w4 w5 l b T s : layout w -> attrs_text a e ->
  layout w1 -> layout w2 -> layout w3 -> layout w4 -> layout w5 -> bad_ext_list l b -> inv T s ->
  rest s = w ++ a ++ ([c_hash] ++ w1 ++ [33] ++ w2 ++ [c_lb] ++ w3 ++ s_enable ++ w4 ++ [c_lp] ++ w5 ++ l) ->
  wp parser_new (fun _ _ => False) (fun e' _ => e' = ENoSuchExtension b) s.
Proof.
  intros L HA L1 L2 L3 L4 L5 HB I Hs.
  set (body := [c_hash] ++ w1 ++ [33] ++ w2 ++ [c_lb] ++ w3 ++ s_enable ++ w4 ++ [c_lp] ++ w5 ++ l) in Hs. assert (SB : solid body) by (split; [reflexivity|discriminate]).
  assert (SO : solid (a ++ body)) by (eapply attrs_solid; eassumption).
  unfold parser_new. apply wp_bind. eapply wp_reads; [apply (reads_ws w L)|exact I|exact Hs|exact SO|].
  intros s1 E1 (I1 & _ & K1). eapply wp_bind_ok; [reflexivity|].
  apply (wp_attrs a e HA _ T s1 body); [rewrite E1, app_length; lia|assumption|assumption|assumption|].
  intros s2 f2 R2 F2. destruct f2 as [|f2]; [rewrite E1, app_length in F2; lia|].
  destruct R2 as (I2 & E2 & _). cbn [attr_loop]. apply wp_bind.
  unfold attribute.
  eapply wp_bind_ok; [unfold check_char; rewrite E2; reflexivity|]. cbn [negb]. apply wp_bind.
  eapply wp_reads; [apply (reads_hash_bang w1 w2 w3 L1 L2 L3)|exact I2| | |].
  { rewrite E2. subst body. do 8 (cbn [app]; rewrite <- ?app_assoc). reflexivity. }
  { split; [reflexivity|discriminate]. }
  intros s3 E3 (I3 & _). apply wp_bind. cbn [negb].
  eapply wp_reads; [apply (reads_ws [] l_nil)|exact I3|exact E3|split; [reflexivity|discriminate]|].
  intros s4 E4 (I4 & _). apply wp_bind.
  eapply wp_reads; [apply reads_consume_ident|exact I4|exact E4| |].
  { apply layout_xid_end; [assumption|apply xid_end_punct; cbn; tauto]. }
  intros s5 E5 (I5 & _). apply wp_bind.
  eapply wp_reads; [apply (reads_ws w4 L4)|exact I5|exact E5|split; [reflexivity|discriminate]|].
  intros s6 E6 (I6 & _). apply wp_bind.
  eapply wp_reads; [apply reads_consume_str|exact I6|exact E6|exact Logic.I|].
  intros s7 E7 (I7 & _). cbn [negb]. apply wp_bind.
  eapply wp_reads; [apply (reads_ws w5 L5)|exact I7|exact E7|eapply bad_ext_head; eassumption|].
  intros s8 E8 (I8 & _). apply wp_bind. unfold extension_list. eapply wp_bind_ok; [reflexivity|].
  eapply wp_conseq; [eapply bad_extension_loop; [eassumption| |exact I8|exact E8]|contradiction|auto].
  rewrite E8. lia.
Qed.

(** ** Documents *)
Lemma init_inv text : inv text (init_state text).
Proof. unfold inv, init_state. cbn. repeat split; apply suf_refl. Qed.
Lemma wp_doc_end T s w : inv T s -> rest s = w -> final_layout w ->
  wp de_end (fun _ s' => inv T s' /\ rest s' = []) (fun _ _ => False) s.
Proof.
  intros I Hs F. unfold de_end. apply wp_bind.
  eapply wp_conseq; [eapply wp_skip_ws_final; eassumption| |auto]. cbn beta.
  intros [] s' H. eapply wp_bind_ok; [reflexivity|].
  assert (R : rest s' = []) by tauto. rewrite R. apply wp_ret. split; [|assumption]. unfold adv in H. tauto.
Qed.
Lemma document_reads_final {A} o (m : M A) w0 at0 e body w1 a :
  layout w0 -> attrs_text at0 e -> value_start (body ++ w1) ->
  (forall T s, inv T s -> rest s = body ++ w1 -> ext s = exts_or e (o_exts o) -> nt s = false ->
     lim s = o_limit o -> last_id s = None ->
     wp m (fun a' s' => a' = a /\ final_layout (rest s') /\ inv T s') (fun _ _ => False) s) ->
  options_from_str o m (w0 ++ at0 ++ body ++ w1) = RValue a.
Proof.
  intros L HA V HM. set (text := w0 ++ _).
  assert (W : wp (document o m) (fun a' _ => a' = a) (fun _ _ => False) (init_state text)).
  { unfold document. apply wp_bind. eapply wp_conseq; [apply (wp_parser_new w0 at0 e (body ++ w1) text); auto using init_inv| |auto].
    cbn beta. intros [] s1 (I1 & E1 & X1 & N1 & L1 & D1). apply wp_bind, wp_modify.
    apply wp_bind. eapply wp_conseq; [apply (HM text)| |auto].
    - exact I1.
    - exact E1.
    - cbn. rewrite X1. cbn. now rewrite exts_empty_or.
    - exact N1.
    - reflexivity.
    - exact D1.
    - cbn beta. intros a' s2 (-> & E2 & I2). apply wp_bind.
      eapply wp_conseq; [eapply wp_doc_end; [eassumption|reflexivity|eassumption]| |auto]. cbn beta. intros _ s3 _. apply wp_ret. reflexivity. }
  unfold options_from_str, from_str, spanned. Transparent wp. unfold wp in W. Opaque wp.
  destruct (document o m (init_state text)); try contradiction. now subst.
Qed.
Lemma document_reads {A} o (m : M A) w0 at0 e body w1 a :
  layout w0 -> attrs_text at0 e -> value_start (body ++ w1) -> final_layout w1 ->
  (forall T s, inv T s -> rest s = body ++ w1 -> ext s = exts_or e (o_exts o) -> nt s = false ->
     lim s = o_limit o -> last_id s = None ->
     wp m (fun a' s' => a' = a /\ rest s' = w1 /\ inv T s') (fun _ _ => False) s) ->
  options_from_str o m (w0 ++ at0 ++ body ++ w1) = RValue a.
Proof.
  intros L HA V F HM. eapply document_reads_final; [exact L|exact HA|exact V|]. intros T s J Hs He Hn Hl HI.
  eapply wp_conseq; [apply (HM T s); assumption| |auto]. cbn beta. intros a' s' (-> & -> & J'). auto.
Qed.
(** the case of lexical readers *)
Lemma document_reads_lex {A} o (m : M A) w0 at0 e body w1 (D : str -> Prop) a :
  layout w0 -> attrs_text at0 e -> value_start (body ++ w1) -> final_layout w1 -> D w1 -> reads m body D a ->
  options_from_str o m (w0 ++ at0 ++ body ++ w1) = RValue a.
Proof.
  intros L HA V F HD HM. eapply document_reads; eauto. intros T s I Hs _ _ _ _.
  eapply wp_reads; [exact HM|exact I|exact Hs|exact HD|]. intros s' E' A'. split; [reflexivity|]. split; [assumption|apply A'].
Qed.
(** layout at the end of a document can follow any literal *)
Lemma final_head w : final_layout w -> w = [] \/ exists c w', w = c :: w' /\ (is_ws_char c = true \/ c = c_slash).
Proof.
  intros [L|(w' & t & L & _ & ->)]; [now apply layout_head|].
  destruct (layout_head _ L) as [->|(c & w'' & -> & H)]; cbn [app]; right; eauto.
Qed.
End WithEnv.
