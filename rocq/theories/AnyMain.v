(** Reading without a type finds the value that a text denotes: whole values. *)
From Coq Require Import String Ascii NArith ZArith Lia Bool List Permutation.
From Coq Require Import ZifyBool ZifyNat ZifyN.
From Verif Require Import Base Facts Value Data Parse De Span Ser Wp EnvOk Layout Lit Attr LexSafe LexWs LexRead DocSafe DocRead LexDoc Fuel Repr ReprFacts TypedRead TypedMain VRepr AnyRead.
Import ListNotations.
Open Scope N_scope.
Open Scope list_scope.
Open Scope m_scope.

Section WithEnv.
Context {E : Env} {X : XidOk E} {FO : FloatOk E}.

(** ** Beginnings *)
Definition float_words : list (str * num) :=
  [(s_inf, NFloat F32 (f_inf F32)); (s_inff32, NFloat F32 (f_inf F32)); (s_inff64, NFloat F64 (f_inf F64));
   (s_NaN, NFloat F32 (f_nan F32)); (s_NaNf32, NFloat F32 (f_nan F32)); (s_NaNf64, NFloat F64 (f_nan F64))].
Lemma num_text_head n t : num_text n t -> (exists c t', t = c :: t' /\ (is_digit c = true \/ c = c_plus \/ c = c_minus)) \/
  In (t, n) float_words.
Proof.
  assert (H0 : forall t, num_head t -> exists c t', t = c :: t' /\ (is_digit c = true \/ c = c_plus \/ c = c_minus)).
  { intros t0 (sg & neg & c & t' & -> & SG & D). destruct SG; cbn; eauto 7. }
  destruct 1 as [sg neg p base ds z k SG BP N LK|k t z SP HI R|t b PT RD|k t b PT RD| | | | |k t f SF].
  - left. apply H0. eapply int_shape; eassumption.
  - left. destruct HI. apply H0, num_head_app. eapply int_shape; eassumption.
  - left. apply H0. apply (fs_head t (pointed_shape t PT)).
  - left. apply H0, num_head_app. apply (fs_head t (pointed_shape t PT)).
  - right. cbn. tauto.
  - right. cbn. tauto.
  - left. eexists _, _. split; [reflexivity|auto].
  - left. eexists _, _. split; [reflexivity|auto].
  - destruct SF; [right; destruct k; cbn; tauto|left; eexists _, _; split; [reflexivity|auto]|right; destruct k; cbn; tauto|left; eexists _, _; split; [reflexivity|auto]].
Qed.
Lemma num_opens n t r : num_text n t -> opens (t ++ r).
Proof.
  intros H. destruct (num_text_head n t H) as [(c & t' & -> & HC)|HI].
  - now apply opener_num.
  - cbn in HI. repeat (destruct HI as [HI|HI]; [injection HI as <- _; apply opener_xid; now rewrite xid_continue_ascii|]). contradiction.
Qed.
Lemma any_name_opens tn r : any_name tn -> opens (tn ++ c_lp :: r).
Proof.
  intros [|t n w HI _ _]; [split; [reflexivity|cbn; intuition discriminate]|]. rewrite <- app_assoc. eapply ident_opens; eassumption.
Qed.
Lemma range_opens x t r : range_lit x t -> opens (t ++ r).
Proof.
  destruct 1; rewrite <- ?app_assoc; try (eapply num_opens; eassumption); split; reflexivity || (cbn; intuition discriminate).
Qed.
Lemma vrepr_opens x t r : vrepr x t -> opens (t ++ r).
Proof.
  intros H. destruct H as [b|n t H|x t H|c t H|s t H|b t H| |t n H _| |x t w w' w'' _ _ _ _|l t w _ _|es t w _ _|tn l t w HN _ _ _|tn fs t w HN _ _ _].
  - destruct b; split; reflexivity || (cbn; intuition discriminate).
  - eapply num_opens; eassumption.
  - eapply range_opens; eassumption.
  - destruct H; split; reflexivity || (cbn; intuition discriminate).
  - destruct H; split; reflexivity || (cbn; intuition discriminate).
  - destruct H; split; reflexivity || (cbn; intuition discriminate).
  - split; reflexivity || (cbn; intuition discriminate).
  - eapply ident_opens; eassumption.
  - split; reflexivity || (cbn; intuition discriminate).
  - split; reflexivity || (cbn; intuition discriminate).
  - split; reflexivity || (cbn; intuition discriminate).
  - split; reflexivity || (cbn; intuition discriminate).
  - rewrite <- app_assoc. now apply any_name_opens.
  - rewrite <- app_assoc. now apply any_name_opens.
Qed.

(** no identifier there *)
Definition noid (t : str) : Prop := forall s r, rest s = t ++ r -> skip_identifier s = Ok None s.
Lemma noid_head c t : is_ident_first_char c = false -> c <> c_r -> noid (c :: t).
Proof.
  intros H N s r Hs. unfold skip_identifier, bind, src. rewrite Hs. cbn [app].
  destruct (starts_string_literal (c :: t ++ r)); [reflexivity|].
  unfold starts_with. change s_rh with [c_r; c_hash]. cbn [strip_prefix]. replace (c_r =? c) with false by lia. now rewrite H.
Qed.
Lemma noid_lit t : (forall r, starts_string_literal (t ++ r) = true) -> noid t.
Proof. intros H s r Hs. unfold skip_identifier, bind, src. now rewrite Hs, H. Qed.
Lemma not_first c : c < 128 -> is_alpha c = false -> c <> c_us -> is_ident_first_char c = false.
Proof. intros L A U. unfold is_ident_first_char. rewrite xid_start_ascii by assumption. lia. Qed.
Lemma noid_str t s : string_lit t s -> noid t.
Proof.
  intros [t' s' W Q|n s' W Q].
  - apply noid_head; [now apply not_first|discriminate].
  - apply noid_lit. intros r. destruct n as [|[|n]]; reflexivity.
Qed.
Lemma noid_bytes t b : bytes_lit t b -> noid t.
Proof. intros [t' b' Q|n s' Q]; apply noid_lit; intros r; [reflexivity|destruct n as [|[|n]]; reflexivity]. Qed.
Lemma noid_char t c : char_lit t c -> noid t.
Proof. intros H. destruct H; (apply noid_head; [now apply not_first|discriminate]). Qed.

(** a value begins with an identifier that is all of it, or one that is followed
    by a parenthesis; or with a word and dots; or not with an identifier *)
Definition lead (t : str) : Prop :=
  noid t \/ (exists ti n, ident_lit ti n /\ (t = ti \/ exists w t', layout w /\ t = ti ++ w ++ c_lp :: t')) \/
  exists w x t', In (w, x) float_words /\ t = w ++ c_dot :: t'.
Lemma word_ident w : In w keywords -> ident_lit w w.
Proof.
  cbn. intros H. repeat (destruct H as [<-|H]; [constructor; [unfold is_ident_first_char; rewrite xid_start_ascii by reflexivity; reflexivity
    |cbn; rewrite !xid_continue_ascii by reflexivity; reflexivity]|]). contradiction.
Qed.
Lemma lead_name tn t : any_name tn -> lead (tn ++ c_lp :: t).
Proof.
  intros [|ti n w HI _ L].
  - left. apply noid_head; [now apply not_first|discriminate].
  - right. left. exists ti, n. split; [assumption|]. right. exists w, t. split; [assumption|]. texts.
Qed.
Lemma vrepr_lead x t : vrepr x t -> lead t.
Proof.
  assert (W : forall w, In w keywords -> lead w) by (intros w IN; right; left; exists w, w; split; [now apply word_ident|now left]).
  intros H. destruct H as [b|n t H|x t H|c t H|s t H|b t H| |t n H _| |x t w w' w'' L _ _ _|l t w _ _|es t w _ _|tn l t w HN _ _ _|tn fs t w HN _ _ _].
  - apply W. destruct b; cbn; tauto.
  - destruct (num_text_head n t H) as [(c & t' & -> & HC)|HI].
    + left. apply noid_head; [apply not_first; unfold is_alpha, is_digit in *; lia|unfold is_digit in HC; lia].
    + apply W. cbn in *. repeat (destruct HI as [HI|HI]; [injection HI as <- _; tauto|]). contradiction.
  - assert (RL : forall n t u, num_text n t -> lead (t ++ c_dot :: u)).
    { intros n t0 u HN. destruct (num_text_head n t0 HN) as [(c & t' & -> & HC)|HI].
      - left. apply noid_head; [apply not_first; unfold is_alpha, is_digit in *; lia|unfold is_digit in HC; lia].
      - right. right. eauto. }
    assert (DL : forall u, lead (c_dot :: u)) by (intros u; left; apply noid_head; [now apply not_first|discriminate]).
    destruct H as [a b ta tb HA _ _|a b ta tb HA _|a ta HA|b tb _ _|b tb _|];
      [exact (RL _ _ (c_dot :: tb) HA)|exact (RL _ _ ([c_dot; c_eq] ++ tb) HA)|exact (RL _ _ [c_dot] HA)|apply DL..].
  - left. now apply noid_char with c.
  - left. now apply noid_str with s.
  - left. now apply noid_bytes with b.
  - left. apply noid_head; [now apply not_first|discriminate].
  - right. left. exists t, n. auto.
  - apply W. cbn. tauto.
  - right. left. exists s_Some, s_Some. split; [apply word_ident; cbn; tauto|]. right. exists w. eexists. split; [assumption|reflexivity].
  - left. apply noid_head; [now apply not_first|discriminate].
  - left. apply noid_head; [now apply not_first|discriminate].
  - now apply lead_name.
  - now apply lead_name.
Qed.

(** ** The look-ahead for structs *)

(** what follows the first value or key in parentheses *)
Definition look : M struct_type :=
  id <- skip_identifier ;;
  match id with
  | None => ret AnyTuple
  | Some _ =>
      skip_ws ;;;
      c <- peek_char ;;
      match c with
      | None => ret AnyTuple
      | Some c =>
          if c =? c_colon then ret Named
          else if c =? c_comma then
            skip_next_char ;;;
            skip_ws ;;;
            b <- check_char c_rp ;;
            ret (if b then NewtypeTuple else NonNewtypeTuple)
          else if c =? c_rp then ret NewtypeTuple
          else ret AnyTuple
      end
  end.
Definition is_tuple (t : struct_type) : Prop := t = AnyTuple \/ t = NewtypeTuple \/ t = NonNewtypeTuple \/ t = EmptyTuple.
Definition after_item (r : str) : Prop :=
  exists w, layout w /\ ((exists r', r = w ++ c_rp :: r') \/ (exists w' r', layout w' /\ solid r' /\ r = w ++ c_comma :: w' ++ r')).
Lemma reads_skip_word w x : In (w, x) float_words -> reads skip_identifier w (fun r => exists r', r = c_dot :: r') (Some w).
Proof.
  intros IN T s r I Hs (r' & ->). unfold skip_identifier. eapply wp_bind_ok; [unfold src; reflexivity|]. rewrite Hs.
  assert (HW : exists c n, w = c :: n /\ is_ident_first_char c = true /\ forallb xid_continue n = true /\
    starts_string_literal (w ++ c_dot :: r') = false /\ starts_with s_rh (w ++ c_dot :: r') = false).
  { unfold float_words in IN. cbn [In] in IN. repeat (destruct IN as [IN|IN]; [injection IN as <- <-|]); [..|contradiction];
      eexists; eexists; (split; [reflexivity|]); (split; [unfold is_ident_first_char; now rewrite xid_start_ascii|]);
      (split; [cbn [forallb]; rewrite !xid_continue_ascii by reflexivity; reflexivity|split; reflexivity]). }
  destruct HW as (c & n & -> & F1 & F2 & -> & ->). cbn [app]. rewrite F1.
  eapply wp_bind_ok; [apply (next_while_from_eq xid_continue s [c] (n ++ c_dot :: r')); [exact Hs|cbn; lia]|].
  rewrite takewhile_app; [|assumption|cbn; now rewrite xid_continue_ascii].
  change (len_utf8 c + blen n)%nat with (blen (c :: n)). change (c :: n ++ c_dot :: r') with ((c :: n) ++ c_dot :: r').
  eapply wp_bind_ok; [rewrite btake_app; reflexivity|].
  apply wp_bind. eapply wp_reads; [apply reads_advance; reflexivity|exact I|exact Hs|exact Logic.I|]. intros s1 E1 A1.
  apply wp_ret. auto.
Qed.
Lemma look_tuple t T s r : lead t -> inv T s -> rest s = t ++ r -> after_item r ->
  wp look (fun t _ => is_tuple t) (fun _ _ => False) s.
Proof.
  intros HL J Hs AI. unfold look. destruct HL as [NI|[(ti & n & HI & HT)|(w & x & t' & IN & ->)]].
  - eapply wp_bind_ok; [eapply NI; eassumption|]. apply wp_ret. unfold is_tuple. auto.
  - destruct AI as (w & L & HR).
    destruct HT as [->|(w1 & t' & L1 & ->)].
    + assert (D : delim r).
      { destruct HR as [(r' & ->)|(w' & r' & _ & _ & ->)]; apply layout_delim; auto; cbn; tauto. }
      apply wp_bind. eapply wp_reads; [apply (reads_skip_identifier ti n HI)|exact J|exact Hs|now apply delim_ident_end|]. intros s1 R1 A1. cbv iota.
      destruct HR as [(r' & ->)|(w' & r' & L' & SO & ->)].
      * apply wp_bind. eapply wp_reads; [apply (reads_ws w L)|apply A1|exact R1|apply solid_char; reflexivity || discriminate|]. intros s2 R2 A2.
        eapply wp_bind_ok; [unfold peek_char; rewrite R2; reflexivity|]. cbn [N.eqb Pos.eqb]. apply wp_ret. unfold is_tuple. auto.
      * apply wp_bind. eapply wp_reads; [apply (reads_ws w L)|apply A1|exact R1|apply solid_char; reflexivity || discriminate|]. intros s2 R2 A2.
        eapply wp_bind_ok; [unfold peek_char; rewrite R2; reflexivity|]. cbn [N.eqb Pos.eqb].
        eapply wp_bind_ok; [unfold skip_next_char, try, next_char; rewrite R2; reflexivity|].
        assert (A3 : adv T s2 (set_rest (w' ++ r') s2)) by (apply adv_set_rest; [apply A2|rewrite R2; apply suf_cons]).
        apply wp_bind. eapply wp_reads; [apply (reads_ws w' L')|apply A3|reflexivity|exact SO|]. intros s4 R4 A4.
        eapply wp_bind_ok; [unfold check_char; reflexivity|]. apply wp_ret. unfold is_tuple. destruct (match rest s4 with [] => _ | _ => _ end); auto.
    + rewrite <- !app_assoc in Hs. cbn [app] in Hs.
      apply wp_bind. eapply wp_reads; [apply (reads_skip_identifier ti n HI)|exact J|exact Hs|now apply lp_ident_end|]. intros s1 R1 A1. cbv iota.
      apply wp_bind. eapply wp_reads; [apply (reads_ws w1 L1)|apply A1|exact R1|apply solid_char; reflexivity || discriminate|]. intros s2 R2 A2.
      eapply wp_bind_ok; [unfold peek_char; rewrite R2; reflexivity|]. cbn [N.eqb Pos.eqb]. apply wp_ret. unfold is_tuple. auto.
  - rewrite <- app_assoc in Hs. cbn [app] in Hs.
    apply wp_bind. eapply wp_reads; [exact (reads_skip_word w x IN)|exact J|exact Hs|exists (t' ++ r); reflexivity|]. intros s1 R1 A1. cbv iota.
    apply wp_bind. eapply wp_reads with (txt := []); [apply (reads_ws [] l_nil)|apply A1|exact R1|apply solid_char; reflexivity || discriminate|]. intros s2 R2 A2.
    eapply wp_bind_ok; [unfold peek_char; rewrite R2; reflexivity|]. cbn [N.eqb Pos.eqb]. apply wp_ret. unfold is_tuple. auto.
Qed.
Lemma look_named ti n w T s r : ident_lit ti n -> layout w -> inv T s -> rest s = ti ++ w ++ c_colon :: r ->
  wp look (fun t _ => t = Named) (fun _ _ => False) s.
Proof.
  intros HI L J Hs. unfold look.
  assert (D : delim (w ++ c_colon :: r)) by (apply layout_delim; [assumption|cbn; tauto]).
  apply wp_bind. eapply wp_reads; [apply (reads_skip_identifier ti n HI)|exact J|exact Hs|now apply delim_ident_end|]. intros s1 R1 A1. cbv iota.
  apply wp_bind. eapply wp_reads; [apply (reads_ws w L)|apply A1|exact R1|apply solid_char; reflexivity || discriminate|]. intros s2 R2 A2.
  eapply wp_bind_ok; [unfold peek_char; rewrite R2; reflexivity|]. cbn [N.eqb Pos.eqb]. now apply wp_ret.
Qed.
Lemma wp_and {A} (m : M A) (Q1 Q2 : A -> st -> Prop) (R1 R2 : err -> st -> Prop) s :
  wp m Q1 R1 s -> wp m Q2 R2 s -> wp m (fun a s' => Q1 a s' /\ Q2 a s') (fun e s' => R1 e s' /\ R2 e s') s.
Proof. Transparent wp. unfold wp. Opaque wp. destruct (m s); auto. Qed.
Lemma check_type T s (P : struct_type -> Prop) : inv T s ->
  wp (check_struct_type_inner true false) (fun t _ => P t) (fun _ _ => False) s ->
  wp (check_struct_type true false) (fun t s' => P t /\ rest s' = rest s /\ adv T s s') (fun _ _ => False) s.
Proof.
  intros J H.
  assert (H' : wp (check_struct_type true false) (fun t _ => P t) (fun _ _ => False) s).
  { unfold check_struct_type. eapply wp_bind_ok; [reflexivity|]. apply wp_bind. eapply wp_conseq; [exact H| |auto].
    cbn beta. intros t s' PT. apply wp_bind, wp_modify. now apply wp_ret. }
  eapply wp_conseq; [apply (wp_and _ _ _ _ _ _ H' (check_struct_type_total true false T s J))| |cbn beta; intros e0 s' (F & _); exact F]. cbn beta.
  intros t s' (PT & A & C). split; [assumption|]. split; [|assumption]. unfold get_cursor in C. congruence.
Qed.
Lemma check_type_look T s w r (P : struct_type -> Prop) : inv T s -> rest s = c_lp :: w ++ r -> layout w -> opens r ->
  (forall s', adv T s s' -> rest s' = r -> wp look (fun t _ => P t) (fun _ _ => False) s') ->
  wp (check_struct_type true false) (fun t s' => P t /\ rest s' = rest s /\ adv T s s') (fun _ _ => False) s.
Proof.
  intros J Hs L O H. apply check_type; [assumption|]. unfold check_struct_type_inner. cbn [negb]. cbv zeta.
  change (c_lp :: w ++ r) with ([c_lp] ++ w ++ r) in Hs.
  apply wp_bind. eapply wp_reads; [apply (reads_consume_char c_lp)|exact J|exact Hs|exact Logic.I|]. intros s1 R1 A1. cbv iota.
  apply wp_bind. eapply wp_reads; [apply (reads_ws w L)|apply A1|exact R1|now apply opens_solid|]. intros s2 R2 A2.
  eapply wp_bind_ok; [unfold check_char; rewrite R2; reflexivity|].
  assert (C : closer c_rp) by (cbn; tauto).
  assert (NR := opens_not_closer c_rp r C O).
  destruct r as [|c r]; [contradiction|]. cbn in NR. rewrite NR. cbn [andb].
  apply H; [eapply adv_trans; eassumption|assumption].
Qed.
Lemma check_type_empty T s w r : inv T s -> rest s = c_lp :: w ++ c_rp :: r -> layout w ->
  wp (check_struct_type true false) (fun t s' => is_tuple t /\ rest s' = rest s /\ adv T s s') (fun _ _ => False) s.
Proof.
  intros J Hs L. apply check_type; [assumption|]. unfold check_struct_type_inner. cbv zeta.
  change (c_lp :: w ++ c_rp :: r) with ([c_lp] ++ w ++ c_rp :: r) in Hs.
  apply wp_bind. eapply wp_reads; [apply (reads_consume_char c_lp)|exact J|exact Hs|exact Logic.I|]. intros s1 R1 A1. cbv iota.
  apply wp_bind. eapply wp_reads; [apply (reads_ws w L)|apply A1|exact R1|apply solid_char; reflexivity || discriminate|]. intros s2 R2 A2.
  eapply wp_bind_ok; [unfold check_char; rewrite R2; reflexivity|]. cbn [N.eqb Pos.eqb andb]. apply wp_ret. unfold is_tuple. auto.
Qed.

(** ** The branches of [any_main] *)
Definition any_struct (any : M value) : M value :=
  t <- check_struct_type true false ;;
  match t with
  | SUnit => ret XUnit
  | Named => struct_after_name [] (l <- map_all c_rp (k <- de_identifier ;; ret (XStr k)) any ;; ret (XMap l))
  | _ => de_tuple (l <- seq_all c_rp any ;; ret (XSeq l))
  end.
Definition any_branch (any : M value) (c : char) : M value :=
  if c =? c_lp then any_struct any
  else if c =? c_lb then de_seq (l <- seq_all c_rb any ;; ret (XSeq l))
  else if c =? c_lc then de_map (l <- map_all c_rc any any ;; ret (XMap l))
  else if is_digit c || (c =? c_plus) || (c =? c_minus) || (c =? c_dot) || (c =? c_b)
  then any_number_or_bytes
  else if (c =? c_dq) || (c =? c_r) then (s <- parse_string ;; ret (XStr s))
  else if c =? c_sq then (c <- parse_char ;; ret (XChar c))
  else fail (EUnexpectedChar c).
Definition any_tail (any : M value) : M value :=
  id <- skip_identifier ;;
  match id with
  | Some _ => skip_ws ;;; any_struct any
  | None => c <- peek_char_or_eof ;; any_branch any c
  end.
Definition no_word (r : str) : Prop := forall w, In w keywords -> ident_at w r = false.
Lemma any_main_skip any s : no_word (rest s) -> starts_with s_unit (rest s) = false -> any_main any s = any_tail any s.
Proof.
  intros W U. unfold any_main. cbv zeta.
  assert (CI : forall w, In w keywords -> consume_ident w s = Ok false s) by (intros w IN; now apply consume_ident_false, W).
  do 2 (unfold bind at 1; rewrite CI by (cbn; tauto)).
  unfold bind at 1. rewrite check_ident_eq, W by (cbn; tauto). cbv iota.
  unfold bind at 1; rewrite CI by (cbn; tauto).
  unfold bind at 1. rewrite consume_str_eq. unfold starts_with in U. destruct (strip_prefix s_unit (rest s)); [discriminate|].
  unfold bind at 1. rewrite CI by (cbn; tauto). unfold bind at 1. rewrite CI by (cbn; tauto).
  unfold bind at 1. rewrite CI by (cbn; tauto).
  unfold bind at 1. rewrite CI by (cbn; tauto). unfold bind at 1. rewrite CI by (cbn; tauto).
  unfold bind at 1. rewrite CI by (cbn; tauto). reflexivity.
Qed.
Lemma any_tail_noid any s c t r : noid (c :: t) -> rest s = (c :: t) ++ r -> any_tail any s = any_branch any c s.
Proof.
  intros NI Hs. unfold any_tail. unfold bind at 1. rewrite (NI s r Hs). unfold bind at 1, peek_char_or_eof, bind, peek_char. now rewrite Hs.
Qed.
(** no word begins with that *)
Definition word_heads : list char := [116; 102; 83; 78; 105].
Lemma no_word_head c r : ~ In c word_heads -> no_word (c :: r).
Proof.
  intros N w IN. unfold ident_at. destruct w as [|x w]; [cbn in IN; intuition discriminate|]. cbn [strip_prefix].
  destruct (x =? c) eqn:EQ; [|reflexivity]. apply N.eqb_eq in EQ. subst x. exfalso. apply N. cbn in *.
  repeat (destruct IN as [IN|IN]; [injection IN as <- _; tauto|]). contradiction.
Qed.
Lemma no_word_ident t n r : ident_lit t n -> ~ In t keywords -> ident_end r -> no_word (t ++ r).
Proof.
  intros HI NI D w IW. assert (IR : In w reserved) by exact IW.
  unfold ident_at. destruct (strip_prefix w (t ++ r)) as [q|] eqn:SP; [|reflexivity].
  destruct (reserved_chars w IR) as [WC W0]. apply strip_prefix_some in SP.
  destruct HI as [c n F1 F2|n NE F].
  2: { destruct w as [|c w]; [contradiction|]. cbn [app] in SP. injection SP as <- _. contradiction. }
  assert (XC : forallb xid_continue (c :: n) = true) by (cbn [forallb]; rewrite (first_continue c) by assumption; assumption).
  set (t := c :: n) in *. clearbody t.
  assert (AA : exists l, (t = w ++ l /\ q = l ++ r) \/ (w = t ++ l /\ r = l ++ q)).
  { symmetry in SP. apply app_eq_app in SP as (l & [[? ?]|[? ?]]); exists l; auto. }
  destruct AA as (l & [[-> ->]|[-> ->]]).
  - destruct l as [|x l]; [rewrite app_nil_r in NI; contradiction|]. cbn.
    rewrite forallb_app in XC. cbn in XC. destruct (xid_continue x); [reflexivity|lia].
  - destruct l as [|x l]; [rewrite app_nil_r in IW; contradiction|]. cbn in D. destruct D as (D & _).
    rewrite forallb_app in WC. cbn in WC. exfalso.
    assert (XX : xid_continue x = true) by (rewrite xid_continue_ascii; [lia|unfold is_alpha, is_digit in WC; lia]).
    apply continue_raw in XX. congruence.
Qed.
Lemma ident_not_unit t n r : ident_lit t n -> starts_with s_unit (t ++ r) = false.
Proof.
  intros HI. destruct (ident_lit_head t n r HI) as (c & t' & -> & XC). unfold starts_with. change s_unit with [c_lp; c_rp]. cbn [strip_prefix].
  destruct (c_lp =? c) eqn:EQ; [|reflexivity]. apply N.eqb_eq in EQ. subst c. rewrite xid_continue_ascii in XC by reflexivity. discriminate.
Qed.

Section Exts.
Variable e : exts.
Hypothesis UV : x_unwrap_variant_newtypes e = false.

Lemma tr_eq {A} (m m' : M A) n n' c t (D : str -> Prop) a : (forall s r, D r -> rest s = t ++ r -> m s = m' s) ->
  tr e m' n n' c t D a -> tr e m n n' c t D a.
Proof. intros HE H T s r J Hs Dr He Hn Hl. eapply wp_eq; [eapply HE; eassumption|]. now apply (H T s r). Qed.
Lemma trw_eq {A} (m m' : M A) c t a : (forall s r, delim r -> rest s = t ++ r -> m s = m' s) ->
  trw e m' c t a -> trw e m c t a.
Proof.
  intros HE H T s r K HR HK J Hs He Hn Hl. eapply wp_eq; [eapply HE; [eapply remainder_delim; eassumption|eassumption]|]. now apply (H T s r K).
Qed.
Lemma adv_keeps T s s' : adv T s s' -> ext s' = ext s /\ nt s' = nt s /\ lim s' = lim s.
Proof. intros (_ & _ & K). destruct K as (K1 & K2 & K3 & K4). repeat split; congruence. Qed.

Lemma tr_any_tuple any c l t w : layout w -> items (fun x t => lead t /\ good e any c t x) l t ->
  tr e (any_struct any) false false (S (S c)) (c_lp :: w ++ t ++ [c_rp]) anything (XSeq l).
Proof.
  intros L HI T s r J Hs _ He Hn Hl. unfold any_struct. apply wp_bind.
  assert (G : items (fun x t => good e any c t x) l t) by (eapply items_mono; [|exact HI]; now intros ? ? []).
  assert (CP : closer c_rp) by (cbn; tauto).
  eapply wp_conseq with (Q := fun ty s' => is_tuple ty /\ rest s' = rest s /\ adv T s s') (R := fun _ _ => False); [| |auto].
  - destruct HI as [|a ta w1 [LD GA] L1|a ta w1 w2 l ts [LD GA] L1 L2 HI].
    + eapply check_type_empty with (w := w); [assumption|rewrite Hs; texts|assumption].
    + eapply check_type_look with (w := w) (r := ta ++ w1 ++ c_rp :: r); [assumption|rewrite Hs; texts|assumption|apply GA|].
      intros s' A' R'. eapply look_tuple; [exact LD|apply A'|exact R'|]. exists w1. split; [assumption|]. left. eauto.
    + eapply check_type_look with (w := w) (r := ta ++ w1 ++ c_comma :: w2 ++ ts ++ c_rp :: r); [assumption|rewrite Hs; texts|assumption|apply GA|].
      intros s' A' R'. eapply look_tuple; [exact LD|apply A'|exact R'|]. exists w1. split; [assumption|]. right.
      exists w2, (ts ++ c_rp :: r). split; [assumption|]. split; [|reflexivity].
      eapply items_solid; [|exact HI|apply solid_char; reflexivity || discriminate]. now intros a' t' [_ [O _]].
  - cbn beta. intros ty s1 (TY & R1 & A1).
    assert (HT : tr e (de_tuple (l <- seq_all c_rp any ;; ret (XSeq l))) false false (S (S c)) (parens false ((w ++ t) ++ [])) (after_parens false) (XSeq l)).
    { eapply tr_de_tuple with (D := begins c_rp); [|constructor|auto].
      eapply tr_map with (f := XSeq). now apply tr_seq_all. }
    destruct (adv_keeps T s s1 A1) as (K1 & K2 & K3).
    assert (W : wp (de_tuple (l <- seq_all c_rp any ;; ret (XSeq l))) (fun a' s' => a' = XSeq l /\ rest s' = r /\ inv T s' /\ ext s' = e /\ nt s' = false /\ lim s' = lim s)
       (fun _ _ => False) s1).
    { rewrite <- K3. apply (HT T s1 r); [apply A1|rewrite R1, Hs; cbn [parens]; rewrite app_nil_r; texts|exact Logic.I|congruence|congruence|rewrite K3; assumption]. }
    destruct TY as [-> |[-> |[-> | ->]]]; exact W.
Qed.
Lemma good_ident c k t : ident_lit t k -> good e (k <- de_identifier ;; ret (XStr k)) c t (XStr k).
Proof.
  intros HI. apply good_tr; [intros r; eapply ident_opens; eassumption|]. eapply tr_D; [|apply delim_ident_end].
  eapply tr_map with (f := XStr). now apply tr_ident.
Qed.
Definition as_entry (kv : str * value) : value * value := (XStr (fst kv), snd kv).
Lemma items_map {A B} (g : A -> B) (R : A -> str -> Prop) (R' : B -> str -> Prop) l t : (forall a t, R a t -> R' (g a) t) ->
  items R l t -> items R' (map g l) t.
Proof. intros H. induction 1; cbn [map]; constructor; auto. Qed.
Lemma tr_any_named any c fs t w : layout w -> fs <> [] -> items (entry field_key_text (fun x t => good e any c t x)) fs t ->
  tr e (any_struct any) false false (S (S c)) (c_lp :: w ++ t ++ [c_rp]) anything (XMap (map as_entry fs)).
Proof.
  intros L NE HI T s r J Hs _ He Hn Hl. unfold any_struct. apply wp_bind.
  assert (G : items (good_entry e (k <- de_identifier ;; ret (XStr k)) any c) (map as_entry fs) t).
  { eapply items_map; [|exact HI]. clear He. intros [k v] t0 H. inversion H; subst. cbn. constructor; auto. now apply good_ident. }
  assert (CP : closer c_rp) by (cbn; tauto).
  assert (F : exists ti n w1 t', ident_lit ti n /\ layout w1 /\ t = ti ++ w1 ++ c_colon :: t').
  { destruct HI as [|a ta w1 H L1|a ta w1 w2 l ts H L1 L2 HI]; [congruence|..]; destruct H as [k tk v tv w3 w4 HK L3 L4 GV]; exists tk, k, w3; eexists;
      (split; [exact HK|]); (split; [assumption|]); texts. }
  destruct F as (ti & n & w1 & t' & HK & L1 & EQ).
  eapply wp_conseq with (Q := fun ty s' => ty = Named /\ rest s' = rest s /\ adv T s s') (R := fun _ _ => False); [| |auto].
  - eapply check_type_look with (w := w) (r := ti ++ w1 ++ c_colon :: t' ++ c_rp :: r); [assumption|rewrite Hs, EQ; texts|assumption|eapply ident_opens; eassumption|].
    intros s' A' R'. eapply look_named; [exact HK|exact L1|apply A'|exact R'].
  - cbn beta. intros ty s1 (-> & R1 & A1).
    assert (HT : tr e (struct_after_name [] (l <- map_all c_rp (k <- de_identifier ;; ret (XStr k)) any ;; ret (XMap l))) false false (S (S c))
       (parens false ((w ++ t) ++ [])) (after_parens false) (XMap (map as_entry fs))).
    { eapply tr_struct_after_name with (D := begins c_rp); [|constructor|auto].
      eapply tr_map with (f := XMap). now apply tr_map_all. }
    destruct (adv_keeps T s s1 A1) as (K1 & K2 & K3). rewrite <- K3.
    apply (HT T s1 r); [apply A1|rewrite R1, Hs; cbn [parens]; rewrite app_nil_r; texts|exact Logic.I|congruence|congruence|rewrite K3; assumption].
Qed.
(** with a name, or without *)
Lemma tr_any_body any c tn body x : any_name tn -> (tn = [] -> starts_with s_unit (c_lp :: body) = false /\ body <> []) ->
  tr e (any_struct any) false false c (c_lp :: body) anything x ->
  tr e (any_main any) false false c (tn ++ c_lp :: body) anything x.
Proof.
  intros HN NE H. destruct HN as [|t n w HI NK L].
  - destruct (NE eq_refl) as [SU NB]. eapply tr_eq; [|exact H]. intros s r _ Hs.
    assert (N0 : noid (c_lp :: body)) by (apply noid_head; [now apply not_first|discriminate]).
    rewrite any_main_skip, (any_tail_noid any s c_lp body r N0 Hs); [reflexivity|..]; rewrite Hs.
    + apply no_word_head. cbn. intuition discriminate.
    + cbn [app]. destruct body as [|b body]; [congruence|]. unfold starts_with in *. change s_unit with [c_lp; c_rp] in *. cbn [strip_prefix app] in *.
      destruct (c_lp =? c_lp); [|reflexivity]. now destruct (c_rp =? b).
  - eapply tr_eq with (m' := any_tail any).
    { intros s r _ Hs. apply any_main_skip; rewrite Hs, <- !app_assoc.
      - eapply no_word_ident; [exact HI|assumption|]. cbn [app]. now apply lp_ident_end.
      - eapply ident_not_unit; eassumption. }
    unfold any_tail. eapply tr_text with (t := t ++ w ++ c_lp :: body); [|texts].
    apply (tr_bind e _ _ false false false c t (w ++ c_lp :: body) ident_end anything (Some n)); [now apply tr_lex, reads_skip_identifier| |].
    + refine (tr_bind e _ _ false false false c w (c_lp :: body) solid anything tt _ _ _ _); [now apply tr_ws|exact H|].
      intros r _. apply solid_char; reflexivity || discriminate.
    + intros r _. rewrite <- app_assoc. now apply lp_ident_end.
Qed.
(** a name alone *)
Lemma any_name_reads any t n T s r K : ident_lit t n -> ~ In t keywords -> remainder K -> K r -> inv T s -> rest s = t ++ r -> ext s = e -> nt s = false ->
  wp (any_main any) (fun a' s' => a' = XUnit /\ (K (rest s') /\ suf (rest s') r) /\ inv T s' /\ ext s' = e /\ nt s' = false /\ lim s' = lim s) (fun _ _ => False) s.
Proof.
  intros HI NK HR HK J Hs He Hn. assert (D := remainder_delim K r HR HK).
  assert (Q : any_main any s = any_tail any s).
  { apply any_main_skip; rewrite Hs.
    - eapply no_word_ident; [exact HI|assumption|now apply delim_ident_end].
    - eapply ident_not_unit; eassumption. }
  Transparent wp. unfold wp. rewrite Q. change (wp (any_tail any) (fun a' s' => a' = XUnit /\ (K (rest s') /\ suf (rest s') r) /\ inv T s' /\ ext s' = e /\ nt s' = false /\ lim s' = lim s) (fun _ _ => False) s). Opaque wp.
  unfold any_tail. apply wp_bind.
  eapply wp_reads; [apply (reads_skip_identifier t n HI)|exact J|exact Hs|now apply delim_ident_end|]. intros s1 R1 A1. cbv iota.
  assert (U : forall s2, adv T s s2 -> K (rest s2) /\ suf (rest s2) r -> starts_not (fun d => d =? c_lp) (rest s2) ->
     wp (any_struct any) (fun a' s' => a' = XUnit /\ (K (rest s') /\ suf (rest s') r) /\ inv T s' /\ ext s' = e /\ nt s' = false /\ lim s' = lim s) (fun _ _ => False) s2).
  { intros s2 A2 K2 NL. unfold any_struct. apply wp_bind.
    eapply wp_conseq; [apply (check_type T s2 (fun t => t = SUnit)); [apply A2|]| |auto].
    - unfold check_struct_type_inner. cbn [negb]. apply wp_bind.
      eapply wp_reads; [apply (reads_consume_char_false c_lp)|apply A2|symmetry; apply app_nil_l|exact NL|]. intros s3 R3 A3. cbv iota. now apply wp_ret.
    - cbn beta. intros ty s3 (-> & R3 & A3). apply wp_ret. destruct (adv_keeps T s s3) as (Q1 & Q2 & Q3); [eapply adv_trans; eassumption|].
      split; [reflexivity|]. split; [now rewrite R3|]. split; [apply A3|]. repeat split; congruence. }
  apply wp_bind. destruct HR as [HR|(r0 & C & HR)].
  - eapply wp_conseq; [apply (wp_skip_ws_final T s1 r); [apply A1|now apply HR|assumption]| |auto]. cbn beta. intros [] s2 (R2 & A2).
    apply U; [eapply adv_trans; eassumption| |now rewrite R2]. rewrite R2. split; [apply HR; left; constructor|]. exists r. now rewrite app_nil_r.
  - apply HR in HK. destruct HK as (w & L & ->).
    assert (SO : solid r0) by (destruct r0 as [|c0 r0]; [exact Logic.I|]; apply solid_char; cbn in C; repeat (destruct C as [<-|C]; [reflexivity || discriminate|]); contradiction).
    eapply wp_conseq; [apply (wp_skip_ws T s1 w r0); [apply A1|assumption|assumption|assumption]| |auto]. cbn beta. intros [] s2 (R2 & A2).
    apply U; [eapply adv_trans; eassumption| |]; rewrite R2.
    + split; [apply HR; exists []; split; [constructor|reflexivity]|]. now exists w.
    + destruct r0 as [|c0 r0]; [exact Logic.I|]. cbn in *. lia.
Qed.
Lemma trw_any_name any c t n : ident_lit t n -> ~ In t keywords -> trw e (any_main any) c t XUnit.
Proof.
  intros HI NK T s r K HR HK J Hs He Hn Hl. eapply wp_conseq; [apply (any_name_reads any t n T s r K); assumption| |auto]. cbn beta. intros a s' (-> & [K' _] & H). auto.
Qed.

(** ** Tokens *)
Lemma tr_float_value n c : tr e (float_range_or_value n) false false c [] delim (XNum n).
Proof.
  unfold float_range_or_value.
  assert (DD : forall r p, delim r -> starts_with (c_dot :: p) r = false).
  { intros [|x r] p D; [reflexivity|]. cbn in D. unfold starts_with. cbn [strip_prefix]. destruct (c_dot =? x) eqn:EQ; [|reflexivity].
    apply N.eqb_eq in EQ. subst x. destruct D as [D|D]; [discriminate D|]. cbn in D. intuition discriminate. }
  eapply tr_bind_l; [apply tr_lex, reads_consume_str_false| |intros r; apply DD].
  eapply tr_bind_l; [apply tr_lex, reads_consume_str_false| |intros r; apply DD]. apply tr_ret.
Qed.
Lemma any_main_word any w x s r : In (w, x) float_words -> rest s = w ++ r -> starts_not xid_continue r ->
  any_main any s = (b <- consume_ident w ;; if b then float_range_or_value x else ret XUnit) s.
Proof.
  intros IN Hs DX. unfold any_main. cbv zeta. 
  assert (CF : forall w', ident_at w' (w ++ r) = false -> consume_ident w' s = Ok false s) by (intros w' H; apply consume_ident_false; now rewrite Hs).
  assert (CT := consume_ident_true w s r Hs DX).
  unfold float_words in IN. cbn [In] in IN.
  repeat (destruct IN as [IN|IN]; [injection IN as <- <-|]); [..|contradiction];
  do 2 (unfold bind at 1; rewrite CF by reflexivity; cbv iota);
  unfold bind at 1; rewrite check_ident_eq, Hs;
  match goal with |- context [ident_at s_Some ?l] => change (ident_at s_Some l) with false end; cbv iota;
  unfold bind at 1; rewrite CF by reflexivity; cbv iota;
  unfold bind at 1; rewrite consume_str_eq, Hs;
  match goal with |- context [strip_prefix s_unit ?l] => change (strip_prefix s_unit l) with (@None str) end; cbv iota;
  repeat first [
    unfold bind at 1; rewrite CT; cbv iota
  | unfold bind at 1; rewrite CF by (try reflexivity; unfold ident_at; cbn; now rewrite xid_continue_ascii); cbv iota ];
  unfold bind; rewrite ?CT; reflexivity.
Qed.
Lemma delim_no_dot r p : delim r -> starts_with (c_dot :: p) r = false.
Proof.
  clear UV. destruct r as [|x r]; intros D; [reflexivity|]. cbn in D. unfold starts_with. cbn [strip_prefix]. destruct (c_dot =? x) eqn:EQ; [|reflexivity].
  apply N.eqb_eq in EQ. subst x. destruct D as [D|D]; [discriminate D|]. cbn in D. intuition discriminate.
Qed.
Lemma delim_no_number r : delim r -> num_start r = false.
Proof.
  clear UV. destruct r as [|x r]; intros D; [reflexivity|]. cbn in D. cbn [num_start]. unfold is_number_start.
  assert (NS : is_digit x || (x =? c_plus) || (x =? c_minus) || (x =? c_dot) || (x =? c_b) = false).
  { destruct D as [D|D]; [|cbn in D; unfold is_digit; lia]. assert (W := D). apply or_introl with (B := x = c_slash), ws_not_float in D. unfold is_float_char, is_digit in *.
    destruct (x =? c_b) eqn:EB; [|lia]. apply N.eqb_eq in EB. subst x. discriminate W. }
  rewrite NS. reflexivity.
Qed.
(** what may follow a number: nothing, or the rest of a range *)
Inductive range_rest (n : num) : value -> str -> Prop :=
  | rr_none : range_rest n (XNum n) []
  | rr_range b tb : num_text b tb -> num_lead tb -> range_rest n (XMap [(XStr s_start, XNum n); (XStr s_end, XNum b)]) (s_dotdot ++ tb)
  | rr_inclusive b tb : num_text b tb -> range_rest n (XMap [(XStr s_start, XNum n); (XStr s_end, XNum b)]) (s_dotdoteq ++ tb)
  | rr_from : range_rest n (XMap [(XStr s_start, XNum n)]) s_dotdot.
Lemma rest_float n x u r : range_rest n x u -> delim r -> float_end (u ++ r).
Proof. clear UV. destruct 1; intros D; rewrite <- ?app_assoc; [now apply delim_float|apply dotdot_float|apply dotdoteq_float|apply dotdot_float]. Qed.
Lemma rest_xid n x u r : range_rest n x u -> delim r -> starts_not xid_continue (u ++ r).
Proof. clear UV. destruct 1; intros D; rewrite <- ?app_assoc; [now apply delim_xid|cbn; now rewrite xid_continue_ascii..]. Qed.
Lemma tr_any_rest n x u c : range_rest n x u -> tr e (float_range_or_value n) false false c u delim x.
Proof.
  clear UV. intros H. destruct H as [|b tb HB HL|b tb HB|]; [apply tr_float_value|..]; unfold float_range_or_value.
  - eapply tr_bind_r; [apply tr_lex, reads_consume_str_false| |intros r' _; rewrite <- app_assoc; eapply dotdot_not_eq; exact HB]. cbv iota.
    eapply (tr_bind e _ _ false false false _ s_dotdot tb anything); [apply tr_lex, reads_consume_str| |now intros]. cbv iota.
    apply tr_src. intros r D. rewrite (num_lead_start (fun _ _ => True) tb r HL).
    eapply tr_D with (D := delim); [|now intros r' ->]. eapply tr_bind_l; [eapply delim_num; eassumption|apply tr_ret|auto].
  - eapply (tr_bind e _ _ false false false _ s_dotdoteq tb anything); [apply tr_lex, reads_consume_str| |now intros]. cbv iota.
    eapply tr_bind_l; [eapply delim_num; eassumption|apply tr_ret|auto].
  - eapply tr_bind_r; [apply tr_lex, reads_consume_str_false| |].
    2:{ intros r D. apply not_true_is_false. intros Q. apply starts_with_true in Q as (r' & Q). injection Q as Q. rewrite Q in D. exfalso. cbn in D. intuition discriminate. }
    cbv iota. eapply (tr_bind_l e _ _ false false false _ s_dotdot anything); [apply tr_lex, reads_consume_str| |now intros]. cbv iota.
    apply tr_src. intros r D. cbn [app]. rewrite delim_no_number by assumption. apply tr_ret.
Qed.
Lemma tr_any_word any c w n x u : In (w, n) float_words -> range_rest n x u -> tr e (any_main any) false false c (w ++ u) delim x.
Proof.
  intros IN HR. eapply tr_eq.
  { intros s r D Hs. rewrite <- app_assoc in Hs. eapply any_main_word; [exact IN|exact Hs|eapply rest_xid; eassumption]. }
  eapply tr_bind; [apply tr_lex, reads_consume_ident|now apply tr_any_rest|intros r; now apply (rest_xid n x)].
Qed.
(** not a word, nor a unit *)
Lemma any_main_head any s c t r : noid (c :: t) -> ~ In c word_heads -> c <> c_lp -> rest s = (c :: t) ++ r -> any_main any s = any_branch any c s.
Proof.
  intros NI NW NL Hs. rewrite any_main_skip; [now apply any_tail_noid with t r|rewrite Hs; now apply no_word_head|].
  rewrite Hs. cbn [app]. unfold starts_with. change s_unit with [c_lp; c_rp]. cbn [strip_prefix]. destruct (c_lp =? c) eqn:EQ; [|reflexivity].
  apply N.eqb_eq in EQ. congruence.
Qed.
Lemma tr_any_head any x c t m (D : str -> Prop) a : noid (x :: t) -> ~ In x word_heads -> x <> c_lp -> any_branch any x = m ->
  tr e m false false c (x :: t) D a -> tr e (any_main any) false false c (x :: t) D a.
Proof.
  intros NI NW NL <- H. eapply tr_eq; [|exact H]. intros s r _ Hs. eapply any_main_head; eassumption.
Qed.
Lemma tr_any_started any c n t x u : num_text n t -> range_rest n x u -> tr e (any_main any) false false c (t ++ u) delim x.
Proof.
  clear UV. intros H HU. assert (HR := reads_any_number n t H). destruct (num_text_head n t H) as [(y & t' & -> & HC)|IN]; [|eapply tr_any_word; eassumption].
  cbn [app]. eapply tr_any_head with (m := any_number_or_bytes).
  - apply noid_head; [apply not_first; unfold is_alpha, is_digit in *; lia|unfold is_digit in HC; lia].
  - unfold is_digit in HC. cbn. lia.
  - unfold is_digit in HC. lia.
  - unfold any_branch, is_digit in *. repeat match goal with |- (if ?b then _ else _) = _ => destruct b eqn:?; try reflexivity; try lia end.
  - assert (NB : forall z p r, ~ (is_digit z = true \/ z = c_plus \/ z = c_minus) -> starts_with (z :: p) ((y :: t' ++ u) ++ r) = false).
    { intros z p r NY. unfold starts_with. cbn [strip_prefix app]. destruct (z =? y) eqn:EQ; [|reflexivity]. apply N.eqb_eq in EQ. congruence. }
    eapply tr_eq with (m' := (n <- any_number ;; float_range_or_value n)).
    { intros s r _ Hs. unfold any_number_or_bytes. unfold bind at 1, src. rewrite Hs. rewrite NB by (unfold is_digit; lia). cbn [andb].
      assert (CS : forall z p, ~ (is_digit z = true \/ z = c_plus \/ z = c_minus) -> check_str (z :: p) s = Ok false s).
      { intros z p NY. unfold check_str. now rewrite Hs, NB. }
      unfold bind at 1. change s_dotdoteq with (c_dot :: [46; 61]). rewrite (CS c_dot) by (unfold is_digit; lia). cbv iota.
      unfold bind at 1. change s_dotdot with (c_dot :: [46]). rewrite (CS c_dot) by (unfold is_digit; lia). reflexivity. }
    change (y :: t' ++ u) with ((y :: t') ++ u).
    eapply tr_bind; [apply tr_lex; exact HR|now apply tr_any_rest|intros r; now apply (rest_float n x)].
Qed.
Lemma tr_any_number any c n t : num_text n t -> tr e (any_main any) false false c t delim (XNum n).
Proof. clear UV. intros H. rewrite <- (app_nil_r t). apply (tr_any_started any c n); [exact H|constructor]. Qed.
Lemma tr_any_dots any c t x : tr e any_number_or_bytes false false c (c_dot :: t) delim x -> tr e (any_main any) false false c (c_dot :: t) delim x.
Proof.
  clear UV. apply tr_any_head; [apply noid_head; [now apply not_first|discriminate]|cbn; intuition discriminate|discriminate|reflexivity].
Qed.
Lemma tr_check_str p c t (D : str -> Prop) (b : bool) : (forall r, D r -> starts_with p (t ++ r) = b) -> forall B (k : bool -> M B) a,
  tr e (k b) false false c t D a -> tr e (bind (check_str p) k) false false c t D a.
Proof.
  clear UV. intros H B k a HK. eapply tr_eq; [|exact HK]. intros s r Dr Hs. unfold bind, check_str. now rewrite Hs, H.
Qed.
Lemma tr_any_range any c t x : range_lit x t -> tr e (any_main any) false false c t delim x.
Proof.
  clear UV. destruct 1 as [a b ta tb HA HB HL|a b ta tb HA HB|a ta HA|b tb HB HL|b tb HB|].
  - apply (tr_any_started any c a); [exact HA|now constructor].
  - apply (tr_any_started any c a); [exact HA|now constructor].
  - apply (tr_any_started any c a); [exact HA|now constructor].
  - apply (tr_any_dots any c (c_dot :: tb)). unfold any_number_or_bytes. apply tr_src. intros r D.
    change (starts_with [c_b] ((c_dot :: c_dot :: tb) ++ r)) with false. cbn [andb]. cbv iota.
    eapply tr_check_str with (b := false). { intros r' ->. change ((c_dot :: c_dot :: tb) ++ r) with ((s_dotdot ++ tb) ++ r). rewrite <- app_assoc. eapply dotdot_not_eq; exact HB. }
    cbv iota. eapply tr_check_str with (b := true); [reflexivity|]. cbv iota.
    eapply tr_bind_r with (D1 := anything) (a := tb ++ r); [| |now intros].
    { intros T s r' J Hs _ He Hn Hl. eapply wp_ok; [|exact (conj eq_refl (conj Hs (conj J (conj He (conj Hn eq_refl)))))]. unfold of_slice.
      change ((c_dot :: c_dot :: tb) ++ r) with ([c_dot; c_dot] ++ tb ++ r). change 2%nat with (blen [c_dot; c_dot]). now rewrite bdrop_app. }
    assert (NS : match tb ++ r with [] => false | c0 :: _ => is_number_start c0 ((c_dot :: c_dot :: tb) ++ r) end = true).
    { destruct tb as [|y tb]; [destruct HL|]. cbn [num_lead] in HL. cbn [app]. unfold is_number_start, is_digit in *.
      replace (y =? c_b) with false by lia. cbn [negb orb]. lia. }
    match goal with |- context [if ?b then _ else _] => change b with (match tb ++ r with [] => false | c0 :: _ => is_number_start c0 ((c_dot :: c_dot :: tb) ++ r) end) end.
    rewrite NS. change (c_dot :: c_dot :: tb) with (s_dotdot ++ tb).
    eapply (tr_bind e _ _ false false false _ s_dotdot tb anything); [apply tr_lex, reads_consume_str| |now intros].
    eapply tr_D with (D := delim); [|now intros r' ->]. eapply tr_bind_l; [eapply delim_num; eassumption|apply tr_ret|auto].
  - apply (tr_any_dots any c (c_dot :: c_eq :: tb)). unfold any_number_or_bytes. apply tr_src. intros r D.
    change (starts_with [c_b] ((c_dot :: c_dot :: c_eq :: tb) ++ r)) with false. cbn [andb]. cbv iota.
    eapply tr_check_str with (b := true); [reflexivity|]. cbv iota. change (c_dot :: c_dot :: c_eq :: tb) with (s_dotdoteq ++ tb).
    eapply (tr_bind e _ _ false false false _ s_dotdoteq tb anything); [apply tr_lex, reads_consume_str| |now intros].
    eapply tr_D with (D := delim); [|now intros r' ->]. eapply tr_bind_l; [eapply delim_num; eassumption|apply tr_ret|auto].
  - apply (tr_any_dots any c [c_dot]). unfold any_number_or_bytes. apply tr_src. intros r D.
    change (starts_with [c_b] ([c_dot; c_dot] ++ r)) with false. cbn [andb]. cbv iota.
    eapply tr_check_str with (b := false).
    { intros r' ->. apply not_true_is_false. intros Q. apply starts_with_true in Q as (r' & Q). injection Q as Q. rewrite Q in D. exfalso. cbn in D. intuition discriminate. }
    cbv iota. eapply tr_check_str with (b := true); [reflexivity|]. cbv iota.
    eapply tr_bind_r with (D1 := anything) (a := r); [| |now intros].
    { intros T s r' J Hs _ He Hn Hl. eapply wp_ok; [|exact (conj eq_refl (conj Hs (conj J (conj He (conj Hn eq_refl)))))]. unfold of_slice.
      change 2%nat with (blen [c_dot; c_dot]). now rewrite bdrop_app. }
    assert (NS : match r with [] => false | c0 :: _ => is_number_start c0 ([c_dot; c_dot] ++ r) end = false).
    { assert (NN := delim_no_number r D). destruct r as [|y r]; [reflexivity|]. cbn [num_start] in NN. unfold is_number_start in *.
      cbn in D. destruct (y =? c_b) eqn:EB; [|exact NN]. apply N.eqb_eq in EB. subst y. destruct D as [D|D]; [discriminate D|cbn in D; intuition discriminate]. }
    match goal with |- context [if ?b then _ else _] => change b with (match r with [] => false | c0 :: _ => is_number_start c0 ([c_dot; c_dot] ++ r) end) end.
    rewrite NS. eapply (tr_bind_l e _ _ false false false _ s_dotdot anything); [apply tr_lex, reads_consume_str|apply tr_ret|now intros].
Qed.
Lemma tr_any_string any c t s : string_lit t s -> tr e (any_main any) false false c t anything (XStr s).
Proof.
  intros H. assert (NI := noid_str t s H). assert (HS := reads_string t s H).
  destruct H; (eapply tr_any_head with (m := (s <- parse_string ;; ret (XStr s))); [exact NI|cbn; intuition discriminate|discriminate|reflexivity|];
    eapply tr_map with (f := XStr), tr_lex; exact HS).
Qed.
Lemma tr_any_char any c t x : char_lit t x -> tr e (any_main any) false false c t anything (XChar x).
Proof.
  intros H. assert (NI := noid_char t x H). assert (HS := reads_char t x H).
  destruct H; (eapply tr_any_head with (m := (c <- parse_char ;; ret (XChar c))); [exact NI|cbn; intuition discriminate|discriminate|reflexivity|];
    eapply tr_map with (f := XChar), tr_lex; exact HS).
Qed.
Lemma tr_any_bytes any c t b : bytes_lit t b -> tr e (any_main any) false false c t anything (XBytes b).
Proof.
  intros H. assert (NI := noid_bytes t b H). assert (HS := reads_bytes t b H).
  assert (HB : tr e any_number_or_bytes false false c t anything (XBytes b)).
  { eapply tr_eq with (m' := (b <- byte_string ;; ret (XBytes b))).
    - intros s r _ Hs. unfold any_number_or_bytes. unfold bind at 1, src. rewrite Hs.
      replace (starts_with [c_b] (t ++ r) && negb (starts_with s_bsq (t ++ r))) with true by (destruct H as [|[|[]]]; reflexivity).
      unfold de_bytes. unfold bind at 1. unfold bind at 1, check_char. rewrite Hs.
      replace (match t ++ r with [] => false | c0 :: _ => c0 =? c_lb end) with false by (destruct H as [|[|[]]]; reflexivity). reflexivity.
    - eapply tr_map with (f := XBytes), tr_lex; exact HS. }
  destruct H as [|n s0 RB]; (eapply tr_any_head with (m := any_number_or_bytes); [exact NI|cbn; intuition discriminate|discriminate|reflexivity|exact HB]).
Qed.
(** words *)
Lemma tr_any_bool any c b : tr e (any_main any) false false c (if b : bool then s_true else s_false) delim (XBool b).
Proof.
  destruct b; unfold any_main; cbv zeta.
  - eapply tr_bind_l; [apply tr_lex, reads_consume_ident|apply tr_ret|apply delim_xid].
  - apply (tr_bind_r e _ _ false false false c s_false (fun r => ident_at s_true r = false) delim false); [apply tr_lex, reads_consume_ident_false| |reflexivity].
    eapply tr_bind_l; [apply tr_lex, reads_consume_ident|apply tr_ret|apply delim_xid].
Qed.
Lemma any_main_Some any s r : rest s = s_Some ++ r -> starts_not xid_continue r -> any_main any s = de_option XNone (v <- any ;; ret (XSome v)) s.
Proof.
  intros Hs D. unfold any_main. cbv zeta. do 2 (unfold bind at 1; rewrite consume_ident_false by (now rewrite Hs); cbv iota).
  unfold bind at 1. rewrite check_ident_eq, Hs, ident_at_app by assumption. reflexivity.
Qed.
Lemma tr_any_None any c : tr e (any_main any) false false c s_None delim XNone.
Proof.
  eapply tr_eq with (m' := (b <- consume_ident s_None ;; if b then ret XNone else ret XUnit)).
  - intros s r D Hs. unfold any_main. cbv zeta. do 2 (unfold bind at 1; rewrite consume_ident_false by (now rewrite Hs); cbv iota).
    unfold bind at 1. rewrite check_ident_eq, Hs. change (ident_at s_Some (s_None ++ r)) with false. cbv iota.
    unfold bind at 1. rewrite (consume_ident_true s_None s r Hs (delim_xid r D)). unfold bind.
    now rewrite (consume_ident_true s_None s r Hs (delim_xid r D)).
  - eapply tr_bind_l; [apply tr_lex, reads_consume_ident|apply tr_ret|apply delim_xid].
Qed.
Lemma tr_any_unit any c : tr e (any_main any) false false c s_unit anything XUnit.
Proof.
  eapply tr_eq with (m' := (b <- consume_str s_unit ;; if b then ret XUnit else ret XNone)).
  - intros s r D Hs. unfold any_main. cbv zeta. do 2 (unfold bind at 1; rewrite consume_ident_false by (now rewrite Hs); cbv iota).
    unfold bind at 1. rewrite check_ident_eq, Hs. change (ident_at s_Some (s_unit ++ r)) with false. cbv iota.
    unfold bind at 1; rewrite consume_ident_false by (now rewrite Hs); cbv iota.
    unfold bind at 1. rewrite consume_str_eq, Hs, strip_prefix_app. unfold bind. now rewrite consume_str_eq, Hs, strip_prefix_app.
  - eapply tr_bind_l with (D1 := anything); [apply tr_lex, reads_consume_str|apply tr_ret|now intros].
Qed.
Lemma tr_any_seq any c l t w : layout w -> items (fun x t => good e any c t x) l t ->
  tr e (any_main any) false false (S (S c)) (c_lb :: w ++ t ++ [c_rb]) anything (XSeq l).
Proof.
  intros L HI. eapply tr_any_head with (m := de_seq (l <- seq_all c_rb any ;; ret (XSeq l))); [apply noid_head; [now apply not_first|discriminate]|cbn; intuition discriminate|discriminate|reflexivity|].
  eapply tr_text; [eapply tr_de_seq with (tb := w ++ t), tr_map with (f := XSeq), tr_seq_all; [cbn; tauto|exact HI|exact L]|texts].
Qed.
Lemma tr_any_map any c l t w : layout w -> items (good_entry e any any c) l t ->
  tr e (any_main any) false false (S (S c)) (c_lc :: w ++ t ++ [c_rc]) anything (XMap l).
Proof.
  intros L HI. eapply tr_any_head with (m := de_map (l <- map_all c_rc any any ;; ret (XMap l))); [apply noid_head; [now apply not_first|discriminate]|cbn; intuition discriminate|discriminate|reflexivity|].
  eapply tr_text; [eapply tr_de_map with (tb := w ++ t), tr_map with (f := XMap), tr_map_all; [cbn; tauto|exact HI|exact L]|texts].
Qed.
Lemma tr_any_some any c x t w w' w'' : layout w -> layout w' -> good e any c t x -> tail w'' ->
  tr e (any_main any) false false (S c) (s_Some ++ w ++ c_lp :: w' ++ t ++ w'' ++ [c_rp]) anything (XSome x).
Proof.
  intros L L' [O G] TL.
  assert (LX : forall r, starts_not xid_continue (w ++ c_lp :: r)).
  { intros r. apply ident_end_xid, lp_ident_end, L. }
  eapply tr_eq; [intros s r _ Hs; eapply any_main_Some; [rewrite Hs; rewrite <- app_assoc; reflexivity|]|].
  { rewrite <- !app_assoc. cbn [app]. apply LX. }
  unfold de_option.
  eapply tr_bind_r with (D1 := fun r => ident_at s_None r = false); [apply tr_lex, reads_consume_ident_false| |reflexivity].
  cbv iota. refine (tr_bind e _ _ false false false (S c) s_Some _ (starts_not xid_continue) anything true _ _ _ _); [apply tr_lex, reads_consume_ident| |].
  2: { intros r _. rewrite <- !app_assoc. cbn [app]. apply LX. }
  cbv iota. eapply tr_text with (t := (w ++ [c_lp]) ++ w' ++ t ++ w'' ++ [c_rp]); [|texts].
  refine (tr_bind e _ _ false false false (S c) (w ++ [c_lp]) _ anything anything true _ _ _ _); [| |now intros].
  { refine (tr_bind e _ _ false false false (S c) w [c_lp] solid anything tt _ _ _ _); [now apply tr_ws|apply tr_char|intros r _; apply solid_char; reflexivity || discriminate]. }
  cbv iota. refine (tr_bind e _ _ false false false (S c) w' _ solid anything tt _ _ _ _); [now apply tr_ws| |].
  2: { intros r _. rewrite <- !app_assoc. apply opens_solid, O. }
  eapply tr_bind_r with (D1 := anything); [apply tr_nt_ext| |now intros]. rewrite UV.
  assert (HG : trw e (guard (v <- any ;; ret (XSome v))) (S c) t (XSome x)) by (apply trw_guard; eapply trw_bind_ret; [exact G|reflexivity]).
  destruct TL as [wa LA|wa wb LA LB].
  - eapply (trw_bind e _ _ false (S c) t wa [c_rp] anything (XSome x)); [exact HG|assumption|intros r _; cbn; tauto|].
    intros w2 L2. eapply tr_bind_r with (D1 := anything); [apply tr_nt| |now intros].
    refine (tr_bind e _ _ false false false (S c) w2 [c_rp] (begins c_rp) anything false _ _ _ _); [apply tr_no_comma; [cbn; tauto|assumption]| |intros r _; now exists r].
    eapply tr_bind_l with (D1 := anything); [apply tr_char|apply tr_ret|now intros].
  - eapply tr_text; [eapply (trw_bind e _ _ false (S c) t wa (c_comma :: wb ++ [c_rp]) anything (XSome x)); [exact HG|assumption|intros r _; cbn; tauto|]|texts].
    intros w2 L2. eapply tr_bind_r with (D1 := anything); [apply tr_nt| |now intros].
    eapply tr_text; [refine (tr_bind e _ _ false false false (S c) (w2 ++ c_comma :: wb) [c_rp] solid anything true _ _ _ _); [apply tr_comma; assumption| |intros r _; apply solid_char; reflexivity || discriminate]|texts].
    eapply tr_bind_l with (D1 := anything); [apply tr_char|apply tr_ret|now intros].
Qed.

(** ** Whole values *)
Lemma items_within {A} (R R' : A -> str -> Prop) l t : items R l t -> forall N, (length t <= N)%nat ->
  (forall a ta, In a l -> R a ta -> (length ta <= N)%nat -> R' a ta) -> items R' l t.
Proof.
  clear UV. induction 1 as [|a t w H L|a t w w' l ts H L L' HI IH]; intros N LN HR.
  - constructor.
  - constructor; auto. apply HR; [now left|assumption|]. rewrite app_length in LN. unfold str, char in *. lia.
  - repeat (rewrite app_length in LN; cbn [length] in LN). constructor; auto.
    + apply HR; [now left|assumption|unfold str, char in *; lia].
    + apply (IH N); [unfold str, char in *; lia|]. intros a' ta IN. apply HR. now right.
Qed.
Lemma max_list_in n l : In n l -> (n <= max_list l)%nat.
Proof. clear UV. induction l as [|a l IH]; cbn; [tauto|]. intros [->|IN]; [lia|]. specialize (IH IN). lia. Qed.
Definition ready (x : value) (t : str) : Prop := forall f c, (length t <= f)%nat -> (vneed x <= c)%nat -> good e (de_any (S f)) c t x.
Lemma good_any f c t x : (forall r, opens (t ++ r)) -> trw e (any_main (de_any f)) c t x -> good e (de_any (S f)) c t x.
Proof.
  intros O H. split; [exact O|]. intros T s r K HR HK J Hs He Hn Hl.
  eapply wp_eq with (m' := any_main (de_any f)); [|now apply (H T s r K)]. cbn [de_any]. unfold bind at 1, get. now rewrite Hn.
Qed.
Lemma ready_items f c l t : items (fun x t => vrepr x t /\ ready x t) l t -> (length t < f)%nat -> (max_list (map vneed l) <= c)%nat ->
  items (fun x t => lead t /\ good e (de_any f) c t x) l t.
Proof.
  intros HI LF LC. destruct f as [|f]; [lia|]. eapply items_within with (N := f); [exact HI|lia|].
  intros x tx IN [V RD] LX. split; [eapply vrepr_lead; eassumption|]. apply RD; [assumption|].
  assert (M := max_list_in (vneed x) (map vneed l) (in_map vneed l x IN)). lia.
Qed.
Lemma ready_entries f c es t : items (entry (fun x t => vrepr x t /\ ready x t) (fun x t => vrepr x t /\ ready x t)) es t -> (length t < f)%nat ->
  (max_list (map (fun kv => Nat.max (vneed (fst kv)) (vneed (snd kv))) es) <= c)%nat -> items (good_entry e (de_any f) (de_any f) c) es t.
Proof.
  intros HI LF LC. destruct f as [|f]; [lia|]. eapply items_within with (N := f); [exact HI|lia|].
  intros [k v] tx IN H LX.
  assert (M := max_list_in _ _ (in_map (fun kv => Nat.max (vneed (fst kv)) (vneed (snd kv))) es (k, v) IN)). cbn [fst snd] in M.
  inversion H as [k' tk v' tv w w' [_ RK] L L' [_ RV]]; subst k' v' tx. repeat (rewrite app_length in LX; cbn [length] in LX).
  constructor; auto; [apply RK|apply RV]; unfold str, char in *; lia.
Qed.
Lemma ready_fields f c fs t : items (entry field_key_text (fun x t => vrepr x t /\ ready x t)) fs t -> (length t < f)%nat ->
  (max_list (map (fun kv => Nat.max (vneed (fst kv)) (vneed (snd kv))) (map as_entry fs)) <= c)%nat -> items (entry field_key_text (fun x t => good e (de_any f) c t x)) fs t.
Proof.
  intros HI LF LC. destruct f as [|f]; [lia|]. eapply items_within with (N := f); [exact HI|lia|].
  intros [k v] tx IN H LX. rewrite map_map in LC.
  assert (M := max_list_in _ _ (in_map (fun kv => Nat.max (vneed (fst (as_entry kv))) (vneed (snd (as_entry kv)))) fs (k, v) IN)). cbn beta in M, LC. apply (fun H => Nat.le_trans _ _ _ H LC) in M. cbn [fst snd as_entry vneed] in M.
  inversion H as [k' tk v' tv w w' HK L L' [_ RV]]; subst k' v' tx. repeat (rewrite app_length in LX; cbn [length] in LX).
  constructor; auto. apply RV; unfold str, char in *; lia.
Qed.

Lemma lp_not_unit w t : layout w -> w <> [] \/ opens t -> starts_with s_unit (c_lp :: w ++ t) = false.
Proof.
  intros L H. unfold starts_with. change s_unit with [c_lp; c_rp]. cbn [strip_prefix]. rewrite N.eqb_refl.
  destruct (layout_head w L) as [->|(c0 & w0 & -> & HC)]; cbn [app].
  - destruct H as [H|H]; [congruence|]. destruct t as [|c t]; [reflexivity|]. destruct H as [_ H].
    destruct (c_rp =? c) eqn:EQ; [|reflexivity]. apply N.eqb_eq in EQ. subst c. exfalso. apply H. cbn. tauto.
  - destruct (c_rp =? c0) eqn:EQ; [|reflexivity]. apply N.eqb_eq in EQ. subst c0. destruct HC as [HC|HC]; discriminate HC.
Qed.
Fixpoint any_ready x t (H : vrepr x t) {struct H} : ready x t.
Proof.
  assert (HX := H). assert (O := fun r => vrepr_opens x t r H).
  destruct H as [b|n t H|x t H|x t H|s t H|b t H| |t n H NK| |x t w w' w'' L L' H TL|l t w L H|es t w L H|tn l t w HN L H NE|tn fs t w HN L NE H];
    intros f c LF LC; (apply good_any; [exact O|]); clear O HX.
  - apply trw_tr, tr_any_bool.
  - now apply trw_tr, tr_any_number.
  - now apply trw_tr, tr_any_range.
  - apply trw_tr. eapply tr_D; [now apply tr_any_char|now intros].
  - apply trw_tr. eapply tr_D; [now apply tr_any_string|now intros].
  - apply trw_tr. eapply tr_D; [now apply tr_any_bytes|now intros].
  - apply trw_tr. eapply tr_D; [apply tr_any_unit|now intros].
  - eapply trw_any_name; eassumption.
  - apply trw_tr, tr_any_None.
  - apply trw_tr. eapply tr_D with (D := anything); [|now intros]. cbn [vneed] in LC. destruct c as [|c]; [lia|]. apply tr_any_some; auto.
    repeat (rewrite app_length in LF; cbn [length] in LF). destruct f as [|f]; [unfold str, char in *; cbn in LF; lia|].
    apply (any_ready x t H); unfold str, char in *; lia.
  - apply trw_tr. eapply tr_D with (D := anything); [|now intros]. cbn [vneed] in LC. destruct c as [|[|c]]; [lia..|].
    apply tr_any_seq; [assumption|]. repeat first [rewrite app_length in LF|progress cbn [length] in LF].
    apply (items_mono (fun x t => lead t /\ good e (de_any f) c t x)); [now intros ? ? []|].
    apply ready_items; [exact (items_mono _ _ (fun a t h => conj h (any_ready a t h)) l t H)|unfold str, char in *; lia|lia].
  - apply trw_tr. eapply tr_D with (D := anything); [|now intros]. cbn [vneed] in LC. destruct c as [|[|c]]; [lia..|].
    apply tr_any_map; [assumption|]. repeat first [rewrite app_length in LF|progress cbn [length] in LF].
    apply ready_entries; [|unfold str, char in *; lia|lia].
    exact (items_mono _ _ (entry_mono _ _ _ _ (fun a t h => conj h (any_ready a t h)) (fun a t h => conj h (any_ready a t h))) es t H).
  - apply trw_tr. eapply tr_D with (D := anything); [|now intros]. cbn [vneed] in LC. destruct c as [|[|c]]; [lia..|].
    repeat first [rewrite app_length in LF|progress cbn [length] in LF].
    assert (HI : items (fun x t => lead t /\ good e (de_any f) c t x) l t)
      by (apply ready_items; [exact (items_mono _ _ (fun a t h => conj h (any_ready a t h)) l t H)|unfold str, char in *; lia|lia]).
    apply tr_any_body; [assumption| |now apply tr_any_tuple].
    intros TN. specialize (NE TN). split; [|destruct w; [destruct t|]; discriminate].
    apply lp_not_unit; [assumption|]. destruct w; [right|left; discriminate]. cbn [app] in NE.
    destruct HI as [|a ta w1 [_ [O _]] L1|a ta w1 w2 l ts [_ [O _]] L1 L2 HI]; [congruence|..]; rewrite <- !app_assoc; apply O.
  - apply trw_tr. eapply tr_D with (D := anything); [|now intros]. cbn [vneed] in LC. destruct c as [|[|c]]; [lia..|].
    repeat first [rewrite app_length in LF|progress cbn [length] in LF].
    assert (HI : items (entry field_key_text (fun x t => good e (de_any f) c t x)) fs t)
      by (apply ready_fields; [exact (items_mono _ _ (entry_mono _ _ _ _ (fun _ _ h => h) (fun a t h => conj h (any_ready a t h))) fs t H)|unfold str, char in *; lia|exact (le_S_n _ _ (le_S_n _ _ LC))]).
    apply tr_any_body; [assumption| |now apply tr_any_named].
    intros _. split; [|destruct w; [destruct t|]; discriminate]. apply lp_not_unit; [assumption|]. right.
    destruct HI as [|a ta w1 HE L1|a ta w1 w2 l ts HE L1 L2 HI]; [congruence|..]; rewrite <- !app_assoc; eapply entry_opens; try exact HE;
      intros k tk HK r; eapply ident_opens; exact HK.
Qed.
End Exts.
End WithEnv.
