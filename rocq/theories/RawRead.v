(** The text of an accepted raw value: what it begins and ends with, and that the
    value in it is read wherever an item may stand. *)
From Coq Require Import String Ascii NArith ZArith Lia Bool List.
From Coq Require Import ZifyBool ZifyNat ZifyN.
From Verif Require Import Base Facts Value Data Parse De Span Ser Raw Wp EnvOk LexSafe DeSafe Layout LexWs LexRead Lit Attr Inv LexSound Repr Accept
  Pieces Sound DocSafe DocRead DocSound Keep ReprFacts TypedRead AnyRead AnyMain Limit Exact More.
Import ListNotations.
Open Scope N_scope.
Open Scope list_scope.
Open Scope m_scope.

(** no attribute: the first thing that is not layout is not a [#] *)
Definition no_attrs (text : str) : Prop := forall w t, layout w -> text <> w ++ c_hash :: t.


(** ** The last character of a value *)
Definition edge (c : char) : Prop := is_ws_char c = false /\ c <> c_slash.
Definition ends_edge (t : str) : Prop := exists u c, t = u ++ [c] /\ edge c.
Lemma ends_app a b : ends_edge b -> ends_edge (a ++ b).
Proof. intros (u & c & -> & H). exists (a ++ u), c. now rewrite app_assoc. Qed.
Lemma ends_one c : edge c -> ends_edge [c].
Proof. intros H. now exists [], c. Qed.
Lemma ends_cons c b : ends_edge b -> ends_edge (c :: b).
Proof. apply (ends_app [c]). Qed.
Lemma ends_all (p : char -> bool) t : (forall c, p c = true -> edge c) -> t <> [] -> forallb p t = true -> ends_edge t.
Proof.
  intros H N F. destruct (exists_last N) as (u & c & ->). exists u, c. split; [reflexivity|]. rewrite forallb_app in F. apply andb_prop in F as [_ F].
  cbn in F. rewrite andb_true_r in F. auto.
Qed.
Lemma ends_repeat c n : edge c -> ends_edge (c_dq :: repeat c n).
Proof.
  intros H. destruct n as [|n]; [now apply ends_one|]. apply ends_cons. apply (ends_all (fun d => d =? c)); [|discriminate|].
  - intros d Q. apply N.eqb_eq in Q. now subst.
  - apply forallb_forall. intros d IN. apply repeat_spec in IN. subst d. apply N.eqb_refl.
Qed.
Lemma ends_no_layout t w u : ends_edge t -> layout w -> t = u ++ w -> w = [].
Proof.
  intros (v & c & -> & W & S) L Q. apply layout_last in L as [-> |(v' & c' & -> & C)]; [reflexivity|]. exfalso.
  rewrite app_assoc in Q. apply app_inj_tail in Q as [_ <-]. destruct C; congruence.
Qed.
Lemma ends_known t : match rev t with [] => false | c :: _ => negb (is_ws_char c) && negb (c =? c_slash) end = true -> ends_edge t.
Proof.
  destruct (rev t) as [|c u] eqn:R; [discriminate|]. intros H. apply andb_prop in H as [H1 H2]. exists (rev u), c.
  split; [rewrite <- (rev_involutive t), R; reflexivity|]. split; [now destruct (is_ws_char c)|]. intros ->. discriminate.
Qed.
Ltac edgy := split; [reflexivity|discriminate].

Section S.
Context {E : Env} {X : XidOk E}.
Lemma xid_edge c : xid_continue c = true -> edge c.
Proof.
  intros H. split.
  - destruct (is_ws_char c) eqn:W; [|reflexivity]. apply ws_not_xid in W. congruence.
  - intros ->. rewrite xid_continue_ascii in H; [discriminate|reflexivity].
Qed.
Lemma raw_edge c : is_ident_raw_char c = true -> edge c.
Proof.
  unfold is_ident_raw_char. intros H. destruct (xid_continue c) eqn:XC; [now apply xid_edge|].
  cbn in H. repeat (apply orb_prop in H as [H|H]); try discriminate H; apply N.eqb_eq in H; subst; edgy.
Qed.
Lemma float_char_edge c : is_float_char c = true -> edge c.
Proof.
  intros H. split; [destruct (is_ws_char c) eqn:W; [|reflexivity]; exfalso|intros ->; discriminate].
  unfold is_ws_char in W. repeat (apply orb_prop in W as [W|W]); try (apply N.eqb_eq in W; subst; discriminate).
Qed.
Lemma ident_ends t n : ident_lit t n -> ends_edge t.
Proof.
  destruct 1 as [c r F R|n N R].
  - destruct r as [|d r]; [apply ends_one|].
    + unfold is_ident_first_char in F. apply orb_prop in F as [F|F]; [apply N.eqb_eq in F; subst; edgy|]. apply xid_edge. now apply xid_start_continue.
    + apply ends_cons. eapply ends_all; [exact xid_edge|discriminate|exact R].
  - do 2 apply ends_cons. eapply ends_all; [exact raw_edge|assumption|assumption].
Qed.
Lemma digit_edge c : is_digit c = true -> edge c.
Proof. intros H. apply xid_edge. rewrite xid_continue_ascii by (unfold is_digit in H; lia). rewrite H. now rewrite orb_true_r. Qed.
Lemma hex_edge c d : hex_digit c d -> edge c.
Proof.
  intros H. assert (R : 48 <= c < 58 \/ 65 <= c < 103) by (destruct H; lia). clear H. split; [|intros ->; lia].
  unfold is_ws_char. lia.
Qed.
Lemma int_number_ends base t z : int_number base t z -> ends_edge t.
Proof.
  destruct 1 as [c d H _|s z c d _ H _|s z _].
  - eapply ends_one, hex_edge, H.
  - eapply ends_app, ends_one, hex_edge, H.
  - apply ends_app, ends_one. edgy.
Qed.
Lemma suffix_ends k : ends_edge (ik_suffix k).
Proof. destruct k; apply ends_known; reflexivity. Qed.
Lemma fsuffix_ends k : ends_edge (fk_suffix k).
Proof. destruct k; apply ends_known; reflexivity. Qed.
Lemma int_text_ends k z t : int_text k z t -> ends_edge t.
Proof.
  destruct 1 as [t [s neg p base ds z' _ _ H]|t H|t b _ H _].
  - do 2 apply ends_app. eapply int_number_ends, H.
  - apply ends_app, suffix_ends.
  - destruct H; repeat first [apply ends_one; edgy|apply ends_cons].
Qed.
Lemma word_ends w f : float_word w f -> ends_edge w.
Proof. destruct 1; apply ends_known; reflexivity. Qed.
Lemma float_text_ends o k b t : float_text o k b t -> ends_edge t.
Proof.
  destruct 1 as [w f W _|w f _ _ _|u v (N & F & _) _|u v _ _ _]; [eapply word_ends, W|apply ends_app, fsuffix_ends| |apply ends_app, fsuffix_ends].
  eapply ends_all; [exact float_char_edge|exact N|exact F].
Qed.
Lemma num_lit_ends n t : num_lit n t -> ends_edge t.
Proof.
  destruct 1 as [w f [H|H]|k w f _|k b t H|k z t _ H].
  - injection H as -> _. apply ends_known; reflexivity.
  - injection H as -> _. apply ends_known; reflexivity.
  - apply ends_app, fsuffix_ends.
  - eapply float_text_ends, H.
  - eapply int_text_ends, H.
Qed.
Lemma atom_ends x t : atom x t -> ends_edge t.
Proof.
  destruct 1 as [b| | |t n H|b t H|n t H|a b o ta tb _ _ H|a ta _|b o tb _ H| |s t H|c t H].
  - destruct b; apply ends_known; reflexivity.
  - apply ends_known; reflexivity.
  - apply ends_known; reflexivity.
  - eapply ident_ends, H.
  - destruct H as [t bs _|n s _]; repeat first [apply ends_one; edgy|apply ends_repeat; edgy|apply ends_cons|apply ends_app].
  - eapply num_lit_ends, H.
  - do 2 apply ends_app. eapply num_lit_ends, H.
  - apply ends_app. apply ends_known; reflexivity.
  - apply ends_app. eapply num_lit_ends, H.
  - apply ends_known; reflexivity.
  - destruct H as [t s' _ _|n s' _ _]; repeat first [apply ends_one; edgy|apply ends_repeat; edgy|apply ends_cons|apply ends_app].
  - destruct H; repeat first [apply ends_one; edgy|apply ends_cons|apply ends_app].
Qed.
Lemma paren_ends t t' : paren false t t' -> ends_edge t'.
Proof. intros H. inversion H. apply ends_cons. do 3 apply ends_app. apply ends_one. edgy. Qed.
Lemma vacc_ends e b x t d : vacc e b x t d -> b = false -> ends_edge t.
Proof.
  intros H. induction H; intros Q; try discriminate; try (apply ends_app; eapply paren_ends; eassumption).
  - eapply atom_ends; eassumption.
  - apply ends_app, ends_app, ends_cons. do 3 apply ends_app. apply ends_one. edgy.
  - apply ends_app, ends_app. auto.
  - apply ends_cons. do 3 apply ends_app. apply ends_one. edgy.
  - apply ends_cons. do 3 apply ends_app. apply ends_one. edgy.
Qed.

(** ** The value in the text *)
(** [x] is read from [t] wherever an item may end, with [l] levels or more *)
Definition embeds (l : option nat) (x : value) (t : str) : Prop :=
  forall T s K r, inv T s -> nt s = false -> x_unwrap_variant_newtypes (ext s) = false -> looser l (lim s) ->
    remainder K -> K r -> rest s = t ++ r ->
    exists s1, any_value s = Ok x s1 /\ K (rest s1) /\ suf (rest s1) r /\ dok T s s1.
Definition tight (t : str) : Prop := (forall r, opens (t ++ r)) /\ ends_edge t.

Lemma any_value_dok T s x s1 : inv T s -> any_value s = Ok x s1 -> dok T s s1.
Proof.
  intros I H. assert (W := safe_any_value T (fun _ => True) s I Logic.I). Transparent wp. unfold wp in W. Opaque wp. now rewrite H in W.
Qed.
Lemma lay_final_app w r : lay w r -> final_layout r -> final_layout (w ++ r).
Proof.
  intros [L|[-> F]] R; [now apply final_app|now rewrite app_nil_r].
Qed.
Lemma value_exact T s x s1 : inv T s -> plain s -> Keep.ready s -> any_value s = Ok x s1 -> delim (rest s1) ->
  exists t w d, rest s = t ++ w ++ rest s1 /\ lay w (rest s1) /\ trail w s1 /\ (w = [] \/ (x = XUnit /\ exists n, ident_lit t n)) /\
    vacc (ext s) false x t d /\ tight t /\ embeds (lim s) x t.
Proof.
  intros I P RD H D. unfold any_value in H. unfold bind at 1, src in H. set (f := (2 * length (rest s) + 3)%nat) in *. clearbody f.
  destruct (any_exact f T s x s1 I P RD H D) as (t & w & d & Q & L & HV & TR & NW & EM). exists t, w, d.
  split; [assumption|]. split; [assumption|]. split; [assumption|]. split; [assumption|]. split; [assumption|]. split.
  { split; [|eapply vacc_ends; eauto]. eapply vacc_leads; [apply P|apply P|exact HV|reflexivity]. }
  intros T' s' K r I' N' U' LO HR HK Hs'. destruct (looser_up _ _ LO) as [up QL].
  destruct (EM T' (set_lim (lim s) s') K r I' N' U' eq_refl HR HK Hs') as (s1' & H1 & K1 & S1).
  assert (SI := sim_any f up (set_lim (lim s) s')). rewrite H1 in SI. cbn [raised] in SI.
  assert (QS : lift up (set_lim (lim s) s') = s') by (unfold lift; cbn; rewrite <- QL; destruct s'; reflexivity).
  rewrite QS in SI. apply (any_value_enough T' f s' x _ I') in SI. exists (lift up s1'). split; [assumption|].
  split; [exact K1|]. split; [exact S1|]. eapply any_value_dok; eassumption.
Qed.

(** a unit is spelled in one piece *)
Lemma atom_unit x t : atom x t -> x = XUnit -> t = s_unit \/ t = s_dotdot \/ exists n, ident_lit t n.
Proof. destruct 1; intros Q; try discriminate; eauto. Qed.
Lemma vacc_unit e b x t d : vacc e b x t d -> b = false -> x = XUnit -> t = s_unit \/ t = s_dotdot \/ exists n, ident_lit t n.
Proof. destruct 1; intros QB Q; try discriminate. eapply atom_unit; eassumption. Qed.
Lemma first_xid c t n : ident_lit (c :: t) n -> c <> c_lp /\ c <> c_dot.
Proof.
  intros H. assert (XC : c = c_us \/ xid_start c = true).
  { inversion H as [c' r F _|m N _]; subst; [|right; now rewrite xid_start_ascii].
    unfold is_ident_first_char in F. apply orb_prop in F as [F|F]; [left; now apply N.eqb_eq|now right]. }
  destruct XC as [-> |XC]; [split; discriminate|]. split; intros ->; rewrite xid_start_ascii in XC by reflexivity; discriminate.
Qed.
Lemma ident_maximal t n t1 n1 c w : ident_lit t n -> ident_lit t1 n1 -> t = t1 ++ c :: w -> c = c_hash \/ edge c.
Proof.
  intros HI HI1 Q. destruct HI as [c1 r F1 R|m N R], HI1 as [c2 r2 F2 R2|m2 N2 R2]; cbn [app] in Q.
  - injection Q as _ ->. rewrite forallb_app in R. apply andb_prop in R as [_ R]. cbn in R. apply andb_prop in R as [R _]. right. now apply xid_edge.
  - injection Q as _ ->. cbn in R. rewrite xid_continue_ascii in R by reflexivity. discriminate.
  - injection Q as <- Q. destruct r2 as [|c2 r2]; cbn in Q; apply cons_inj in Q as [Q1 Q2]; [now left|].
    subst c2. cbn in R2. rewrite xid_continue_ascii in R2 by reflexivity. discriminate.
  - injection Q as ->. rewrite forallb_app in R. apply andb_prop in R as [_ R]. cbn in R. apply andb_prop in R as [R _]. right. now apply raw_edge.
Qed.
Lemma unit_name e t d t1 n w : vacc e false XUnit t d -> ident_lit t1 n -> t = t1 ++ w -> final_layout w -> w = [].
Proof.
  intros H HI Q F. destruct (final_head w F) as [-> |(c & w' & -> & C)]; [reflexivity|exfalso].
  destruct t1 as [|c1 t1]; [inversion HI|]. assert (FX := first_xid _ _ _ HI).
  apply vacc_unit in H as [-> |[-> |(m & HM)]]; [| | |reflexivity|reflexivity].
  - cbn in Q. injection Q as <- _. now destruct FX.
  - cbn in Q. injection Q as <- _. now destruct FX.
  - destruct (ident_maximal _ _ _ _ _ _ HM HI Q) as [-> |[W S]]; destruct C as [C|C]; congruence || discriminate.
Qed.

(** the layout before the value is not lost *)
Lemma solid_final c r : solid (c :: r) -> final_layout (c :: r) -> False.
Proof.
  assert (L : forall w, layout w -> forall c r, w = c :: r -> solid w -> False).
  { intros w H. destruct H; intros c' r' Q S; cbn in S; try discriminate Q; destruct S as [S1 S2]; try congruence; now apply S2. }
  intros S [F|(w & t & F & _ & Q)]; [eapply L; eauto|]. destruct w as [|c' w].
  - injection Q as -> _. destruct S. congruence.
  - injection Q as -> ->. eapply (L (c' :: w)); eauto.
Qed.
Lemma attr_loop_same T f : forall s u s', inv T s -> attr_loop f s = Ok u s' ->
  s' = s \/ exists t, rest s = c_hash :: t.
Proof.
  destruct f as [|f]; intros s u s' I H; [discriminate|]. cbn [attr_loop] in H.
  apply bind_ok in H as (a & s1 & H1 & H). apply attribute_ok with (T := T) in H1 as (_ & C); [|exact I]. destruct a.
  - apply ret_ok in H as [_ ->]. auto.
  - right. destruct C as (t & w & -> & AT & _). destruct AT; eexists; reflexivity.
  - right. destruct C as (t & w & -> & AT & _). destruct AT; eexists; reflexivity.
Qed.
Lemma track_init text : track_ws (init_state text) = init_state text.
Proof. unfold track_ws. cbn [last_ws rest pre_ws init_state Nat.add]. now rewrite Nat.ltb_irrefl. Qed.
Lemma skip_ws_first text u s : skip_ws (init_state text) = Ok u s -> pre_ws s = text.
Proof.
  intros H. unfold skip_ws in H. apply bind_ok in H as (v & s1 & H1 & H). apply modify_ok in H1. subst s1. rewrite track_init in H.
  apply bind_ok in H as (r & s2 & H2 & H). apply src_ok in H2 as [-> ->]. cbn [rest init_state] in H.
  destruct text as [|c text]; [now apply ret_ok in H as [_ ->]|].
  apply bind_ok in H as (b & s1 & H1 & H).
  assert (P : pre_ws s1 = c :: text).
  { assert (K := still_ws_loop (init_state (c :: text)) (Datatypes.S (length (c :: text))) _ (same_refl _)). rewrite H1 in K. apply K. }
  destruct b; [apply modify_ok in H; subst s; exact P|]. unfold update_last_ws in H. destruct (Nat.leb _ _); [|discriminate].
  injection H as _ <-. exact P.
Qed.
Lemma parser_new_pre text u s : parser_new (init_state text) = Ok u s -> no_attrs text -> pre_ws s = text.
Proof.
  intros H NA. unfold parser_new in H. apply bind_ok in H as ([] & s1 & H1 & H).
  assert (I1 : inv text s1) by (eapply total_ok; [apply total_skip_ws|apply inv_init|exact H1]).
  assert (P1 := skip_ws_first _ _ _ H1). apply skip_ws_sound in H1 as (w & Q & C).
  apply bind_ok in H as (r & s2 & H2 & H). apply src_ok in H2 as [-> ->].
  apply attr_loop_same with (T := text) in H as [->|[t R]]; [exact P1| |exact I1].
  exfalso. destruct C as [[L _]|[N _]]; [|congruence]. apply (NA w t L). cbn [rest init_state] in Q. now rewrite Q, R.
Qed.

(** no unclosed line comment when nothing is left *)
Lemma trail_closed s s1 : trail [] s -> rest s = [] -> skip_ws s = Ok tt s1 -> rest s1 = [] /\ last_ws s1 <> None.
Proof.
  intros TR R H. unfold skip_ws in H. unfold bind at 1, modify in H. unfold bind at 1, src in H. rewrite track_ws_rest, R in H. injection H as <-.
  split; [now rewrite track_ws_rest|]. destruct TR as [[_ (l & L & B)]|(_ & _ & L)].
  - unfold track_ws. rewrite L. apply Nat.ltb_lt in B. rewrite B. cbn. congruence.
  - specialize (proj1 L l_nil). unfold track_ws. destruct (last_ws s) as [l|] eqn:Q; [|contradiction]. destruct (Nat.ltb _ _); cbn; congruence.
Qed.

(** ** Reading a raw value anew *)
Notation default_limit := (Some 128%nat).
Lemma new_ok w a t : layout w -> attrs_text a exts_empty -> value_start t ->
  exists s, deserializer_new (init_state (w ++ a ++ t)) = Ok tt s /\ inv (w ++ a ++ t) s /\ rest s = t /\ ext s = exts_empty /\
    nt s = false /\ lim s = default_limit /\ Keep.ready s.
Proof.
  intros L A V. set (text := w ++ a ++ t). assert (W := wp_parser_new w a exts_empty t text (init_state text) L A V (inv_init text) eq_refl).
  Transparent wp. unfold wp in W. Opaque wp. destruct (parser_new (init_state text)) as [[] s0| | |] eqn:H; try contradiction.
  assert (RD := parser_new_ready _ _ _ H). destruct W as (I0 & R0 & E0 & N0 & L0 & _).
  unfold deserializer_new. unfold bind at 1. rewrite H. eexists. split; [reflexivity|]. split; [exact I0|]. split; [exact R0|]. split; [|auto].
  cbn. rewrite E0. reflexivity.
Qed.
Lemma final_remainder : remainder final_layout.
Proof. left. tauto. Qed.
Lemma skip_run T s w : inv T s -> final_layout w -> rest s = w -> exists s1, skip_ws s = Ok tt s1 /\ rest s1 = [] /\ adv T s s1.
Proof.
  intros I F R. assert (W := wp_skip_ws_final T s w I F R). Transparent wp. unfold wp in W. Opaque wp.
  destruct (skip_ws s) as [[] s1| | |]; try contradiction. eauto.
Qed.
Lemma skip_none T s : inv T s -> solid (rest s) -> exists s1, skip_ws s = Ok tt s1 /\ rest s1 = rest s /\ adv T s s1.
Proof.
  intros I F. assert (W := wp_skip_ws T s [] (rest s) I eq_refl l_nil F). Transparent wp. unfold wp in W. Opaque wp.
  destruct (skip_ws s) as [[] s1| | |]; try contradiction. eauto.
Qed.
Lemma trim_run w a t w' x : layout w -> attrs_text a exts_empty -> final_layout w' -> tight t -> embeds default_limit x t ->
  exists s1 s2 s3 s4 t2 w2 w3 d, deserializer_new (init_state (w ++ a ++ t ++ w')) = Ok tt s1 /\ inv (w ++ a ++ t ++ w') s1 /\ rest s1 = t ++ w' /\
    ext s1 = exts_empty /\ nt s1 = false /\ lim s1 = default_limit /\
    skip_ws s1 = Ok tt s2 /\ rest s2 = rest s1 /\ any_value s2 = Ok x s3 /\ suf (rest s3) w' /\ skip_ws s3 = Ok tt s4 /\
    rest s4 = [] /\ t ++ w' = t2 ++ w2 /\ w2 = w3 ++ rest s3 /\ pre_ws s4 = w2 /\ final_layout w2 /\ trail w3 s3 /\ (w3 = [] \/ (x = XUnit /\ exists n, ident_lit t2 n)) /\
    vacc exts_empty false x t2 d /\ tight t2 /\ embeds default_limit x t2.
Proof.
  intros L A F TI EM. set (text := w ++ a ++ t ++ w').
  assert (V : value_start (t ++ w')) by apply opens_value_start, TI.
  destruct (new_ok w a (t ++ w') L A V) as (s1 & H1 & I1 & R1 & E1 & N1 & L1 & RD1). fold text in H1, I1.
  destruct (skip_none text s1 I1) as (s2 & H2 & R2 & A2); [rewrite R1; apply V|].
  assert (RD2 := skip_ws_ready _ _ _ (ready_tracked _ RD1) H2).
  assert (E2 : ext s2 = exts_empty) by (rewrite (adv_ext _ _ _ A2); assumption).
  assert (N2 : nt s2 = false) by (rewrite (adv_nt _ _ _ A2); assumption).
  assert (L2 : lim s2 = default_limit) by (rewrite (adv_lim _ _ _ A2); assumption).
  assert (I2 : inv text s2) by apply A2.
  assert (LO : looser default_limit (lim s2)) by (rewrite L2; cbn; lia).
  assert (U2 : x_unwrap_variant_newtypes (ext s2) = false) by now rewrite E2.
  assert (R2' : rest s2 = t ++ w') by congruence.
  destruct (EM text s2 final_layout w' I2 N2 U2 LO final_remainder F R2') as (s3 & H3 & F3 & S3 & D3).
  assert (P2 : plain s2) by (split; [assumption|]; rewrite E2; split; reflexivity).
  destruct (value_exact text s2 x s3 I2 P2 RD2 H3 (final_delim _ F3)) as (t2 & w3 & d & Q & LA & TR & NW & HV & TI2 & EM2).
  destruct (skip_run text s3 (rest s3) (proj1 D3) F3 eq_refl) as (s4 & H4 & R4 & A4).
  exists s1, s2, s3, s4, t2, (w3 ++ rest s3), w3, d. rewrite E2 in HV. rewrite L2 in EM2. rewrite R2' in Q.
  repeat (split; [assumption || (now apply lay_final_app) || (now apply trail_skip) || reflexivity|]). assumption.
Qed.

(** [ron] is layout, attributes that enable nothing, a text of [x], layout *)
Definition good_raw (ron : str) (x : value) (t : str) : Prop := exists w a w' d, ron = w ++ a ++ t ++ w' /\ layout w /\ attrs_text a exts_empty /\
  final_layout w' /\ vacc exts_empty false x t d /\ tight t /\ embeds default_limit x t.

Lemma trim_eq (b t w : str) : (let n := blen (b ++ t ++ w) in
  if Nat.leb (n - blen (t ++ w)) (n - blen w) then match btake (n - blen w) (b ++ t ++ w) with Some u => bdrop (n - blen (t ++ w)) u | None => None end else None) = Some t.
Proof.
  cbv zeta. replace (blen (b ++ t ++ w) - blen (t ++ w))%nat with (blen b) by (rewrite (blen_app b); lia).
  replace (blen (b ++ t ++ w) - blen w)%nat with (blen (b ++ t)) by (rewrite app_assoc, (blen_app (b ++ t)); lia).
  replace (Nat.leb _ _) with true by (symmetry; apply Nat.leb_le; rewrite blen_app; lia).
  rewrite app_assoc, btake_app. apply bdrop_app.
Qed.
Lemma trim_good ron x t : good_raw ron x t -> exists t2, raw_trim ron = Some t2 /\ good_raw ron x t2.
Proof.
  intros (w & a & w' & d & -> & L & A & F & HV & TI & EM).
  destruct (trim_run w a t w' x L A F TI EM) as (s1 & s2 & s3 & s4 & t2 & w2 & w3 & d2 & H1 & I1 & R1 & E1 & N1 & L1 & H2 & R2 & H3 & S3 & H4 & R4 & Q & Q2 & P4 & F2 & TR & NW & HV2 & TI2 & EM2).
  exists t2. split.
  - unfold raw_trim, trim_range. unfold bind at 1. rewrite H1. unfold bind at 1. rewrite H2. unfold bind at 1, src. unfold bind at 1. rewrite H3.
    unfold bind at 1. rewrite H4. unfold bind, pre_ws_src. rewrite R2, R1, P4, Q.
    replace (Nat.leb _ _ && Nat.leb _ _) with true; [cbn [ret]|symmetry; apply andb_true_intro; split; apply Nat.leb_le; rewrite !blen_app; lia].
    rewrite (app_assoc w a). apply (trim_eq (w ++ a) t2 w2).
  - exists w, a, w2, d2. repeat (split; [assumption || (now rewrite Q)|]). assumption.
Qed.
(** the same value is read from all of it *)
Lemma good_value ron x t : good_raw ron x t -> raw_into_rust any_value ron = RValue x.
Proof.
  intros (w & a & w' & d & -> & L & A & F & HV & TI & EM). unfold raw_into_rust.
  apply document_reads_final with (e := exts_empty); [assumption|assumption|apply opens_value_start, TI|].
  intros T s I R E' N' L' _. destruct (EM T s final_layout w') as (s1 & H & F1 & _ & D); auto using final_remainder.
  - now rewrite E'.
  - rewrite L'. cbn. lia.
  - Transparent wp. unfold wp. Opaque wp. rewrite H. split; [reflexivity|]. split; [assumption|apply D].
Qed.
Lemma good_self ron x t : good_raw ron x t -> good_raw t x t.
Proof.
  intros (w & a & w' & d & -> & L & A & F & HV & TI & EM). exists [], [], [], d. rewrite app_nil_r. cbn [app].
  split; [reflexivity|]. split; [constructor|]. split; [constructor|]. split; [left; constructor|auto].
Qed.
(** a text without anything around it stays as it is *)
Lemma trim_tight ron x t : good_raw ron x t -> raw_trim t = Some t /\ raw_from_ron t = RValue t.
Proof.
  intros G. assert (GV := good_value _ _ _ (good_self _ _ _ G)). assert (G0 := good_self _ _ _ G). destruct G as (_ & _ & _ & d & _ & _ & _ & _ & HV & TI & EM).
  destruct (trim_run [] [] t [] x l_nil as_nil (or_introl l_nil) TI EM) as (s1 & s2 & s3 & s4 & t2 & w2 & w3 & d2 & H1 & I1 & R1 & E1 & N1 & L1 & H2 & R2 & H3 & S3 & H4 & R4 & Q & Q2 & P4 & F2 & TR & NW & HV2 & TI2 & EM2).
  cbn [app] in H1, I1. rewrite app_nil_r in *.
  assert (R3 : rest s3 = []) by (destruct S3 as [y S3]; symmetry in S3; now apply app_eq_nil in S3).
  rewrite R3, app_nil_r in Q2. subst w3.
  assert (w2 = []) as ->.
  { destruct NW as [NW|[-> (n & HI)]]; [assumption|]. exact (unit_name _ _ _ _ _ _ HV HI Q F2). }
  rewrite app_nil_r in Q. subst t2. destruct (trail_closed s3 s4 TR R3 H4) as [_ CL]. split.
  - unfold raw_trim, trim_range. unfold bind at 1. rewrite H1. unfold bind at 1. rewrite H2. unfold bind at 1, src. unfold bind at 1. rewrite H3.
    unfold bind at 1. rewrite H4. unfold bind, pre_ws_src. rewrite R2, R1, P4.
    replace (Nat.leb _ _ && Nat.leb _ _) with true; [cbn [ret]|symmetry; apply andb_true_intro; split; apply Nat.leb_le; cbn; lia].
    assert (TE := trim_eq [] t []). cbn [app] in TE. rewrite !app_nil_r in TE. exact TE.
  - assert (PN : pre_ws s1 = t).
    { unfold deserializer_new in H1. apply bind_ok in H1 as ([] & s0 & H0 & H1). apply modify_ok in H1. subst s1. cbn [pre_ws set_lim set_ext].
      eapply parser_new_pre; [exact H0|]. intros w u L Q. assert (V := opens_value_start _ (proj1 TI [])). rewrite app_nil_r in V.
      rewrite Q in V. destruct V as [V1 V2]. destruct (layout_head w L) as [-> |(c & w' & -> & C)]; [cbn in V2; congruence|].
      cbn in V1, V2. destruct V1 as [W S]. destruct C as [C|C]; [congruence|]. subst c. now apply S. }
    assert (DR : de_raw s1 = Ok t s4).
    { unfold de_raw. unfold bind at 1, pre_ws_src. unfold bind at 1. rewrite H2. unfold bind at 1. rewrite H3. unfold bind at 1. rewrite H4.
      unfold bind at 1, src. unfold bind at 1, has_unclosed_line_comment. rewrite R4. destruct (last_ws s4); [|contradiction].
      unfold bind at 1, slice_before. rewrite PN. cbn [blen]. replace (Nat.leb 0 (blen t)) with true by reflexivity. rewrite Nat.sub_0_r.
      assert (BT := btake_app t []). rewrite app_nil_r in BT. rewrite BT. unfold of_slice at 1. unfold ret at 1.
      unfold raw_into_rust, options_from_str, spanned in GV. destruct (from_str opts_default any_value t) as [x' s'|e' s'| |]; try discriminate GV; [reflexivity|destruct (span_error t s'); discriminate GV]. }
    unfold raw_from_ron, spanned. unfold bind at 1. rewrite H1. unfold bind at 1, get. rewrite E1. change (negb (exts_is_empty exts_empty)) with false. cbv iota.
    unfold bind at 1. rewrite DR. unfold bind at 1, de_end. unfold bind at 1.
    destruct (skip_run t s4 [] ) as (s5 & H5 & R5 & _); [|left; constructor|assumption|].
    { assert (I2 : inv t s2) by (eapply total_ok; [apply total_skip_ws|exact I1|exact H2]).
      assert (I3 := proj1 (any_value_dok t s2 x s3 I2 H3)). eapply total_ok; [apply total_skip_ws|exact I3|exact H4]. }
    rewrite H5. unfold bind, src. rewrite R5. reflexivity.
Qed.

(** ** Where raw values come from *)
Lemma layout_then w r w' r' : layout w -> solid r -> layout w' -> solid r' -> w ++ r = w' ++ r' -> r = r'.
Proof.
  intros L S L' S' Q. set (T := w ++ r) in *.
  assert (W := wp_skip_ws T (init_state T) w r (inv_init T) eq_refl L S). assert (W' := wp_skip_ws T (init_state T) w' r' (inv_init T) Q L' S').
  Transparent wp. unfold wp in W, W'. Opaque wp. destruct (skip_ws (init_state T)) as [u s| | |]; try contradiction. destruct W as [<- _], W' as [<- _]. reflexivity.
Qed.
Lemma final_then w w' r' : final_layout w -> layout w' -> solid r' -> w = w' ++ r' -> r' = [].
Proof.
  intros F L' S' Q. set (T := w) in *.
  assert (W := wp_skip_ws_final T (init_state T) w (inv_init T) F eq_refl). assert (W' := wp_skip_ws T (init_state T) w' r' (inv_init T) Q L' S').
  Transparent wp. unfold wp in W, W'. Opaque wp. destruct (skip_ws (init_state T)) as [u s| | |]; try contradiction. destruct W as [R _], W' as [<- _]. exact R.
Qed.
Lemma hash_solid u : solid (c_hash :: u).
Proof. apply solid_char; [reflexivity|discriminate]. Qed.
Lemma opens_no_attrs w r : layout w -> opens r -> no_attrs (w ++ r).
Proof.
  intros L O w' u L' Q. apply layout_then in Q; auto using hash_solid, opens_solid. subst r.
  assert (V := opens_value_start _ O). now destruct V.
Qed.
Lemma final_no_attrs w : final_layout w -> no_attrs w.
Proof. intros F w' u L' Q. apply final_then in Q; auto using hash_solid. discriminate. Qed.

Lemma vacc_opens e x t d : vacc e false x t d -> forall r, opens (t ++ r).
Proof.
  intros H r. assert (OP : forall c u, In c [c_lp; c_lb; c_lc] -> opens (c :: u)).
  { intros c u IN. cbn in IN. split; [|cbn; lia]. repeat (destruct IN as [<-|IN]; [reflexivity|]). contradiction. }
  assert (SO : forall u, opens (s_Some ++ u)) by (intros u; apply (ident_opens s_Some s_Some); apply word_ident; cbn; tauto).
  assert (NA : forall tn y, Accept.any_name tn -> opens (tn ++ c_lp :: y)).
  { intros tn y [->|(ti & n & w & HI & LW & ->)]; [apply OP; cbn; tauto|]. rewrite <- app_assoc. eapply ident_opens; eassumption. }
  remember false as b eqn:QB. destruct H; try discriminate QB; rewrite <- ?app_assoc; try apply SO; try (apply OP; cbn; tauto).
  - eapply (vacc_leads exts_empty false x t 0); [reflexivity|reflexivity|now apply va_atom|reflexivity].
  - inversion H1; subst. apply NA. assumption.
  - inversion H1; subst. apply NA. assumption.
Qed.
Lemma vacc_first e b x t d : vacc e b x t d -> exists w r, t = w ++ r /\ layout w /\ (r = [] \/ forall q, opens (r ++ q)).
Proof.
  destruct b; [|intros H; exists [], t; split; [reflexivity|]; split; [constructor|right; eapply vacc_opens; eassumption]].
  assert (ITEMS : forall (B : Type) (R : B -> str -> nat -> Prop) l u du, (forall a t d, R a t d -> forall r, opens (t ++ r)) -> sepd R l u du -> u = [] \/ forall q, opens (u ++ q)).
  { intros B R l u du HO HS. destruct (sepd_first R l u du HO HS) as [[_ ->]|(a & l' & ta & da & y & _ & HA & -> & _)]; [now left|]. right. intros q. rewrite <- app_assoc. eapply HO, HA. }
  intros H. remember true as b eqn:QB. destruct H; subst;
    try (match goal with |- exists w r, ?t = w ++ r /\ _ => exists [], t; split; [reflexivity|]; split; [constructor|]; right;
           eapply (vacc_opens e); econstructor; solve [eauto] end).
  - exists [], []. split; [reflexivity|]. split; [constructor|now left].
  - inversion H0; subst. eexists w, t. split; [reflexivity|]. split; [assumption|]. eapply ITEMS; [|exact H]. intros a t0 d0 HV. eapply vacc_opens, HV.
  - inversion H0; subst. eexists w, t. split; [reflexivity|]. split; [assumption|]. eapply ITEMS; [|exact H].
    intros a t0 d0 HV. destruct HV as [k tk dk v tv dv w1 w2 (k0 & _ & HI & _) _ _ _]. intros r. rewrite <- app_assoc. eapply ident_opens, HI.
Qed.
Lemma raw_no_attrs e b x p w t w' d : layout p \/ (w ++ t ++ w' = [] /\ final_layout p) -> layout w \/ (t ++ w' = [] /\ final_layout w) -> final_layout w' -> vacc e b x t d ->
  no_attrs (p ++ w ++ t ++ w').
Proof.
  intros LP LW F HV. destruct LP as [LP|[-> LP]]; [|rewrite app_nil_r; now apply final_no_attrs].
  destruct LW as [LW|[-> LW]]; [|rewrite app_nil_r; apply final_no_attrs; now apply final_app].
  destruct (vacc_first _ _ _ _ _ HV) as (w1 & r & -> & L1 & [-> |O]).
  - rewrite app_nil_r. apply final_no_attrs. repeat apply final_app; assumption.
  - replace (p ++ w ++ (w1 ++ r) ++ w') with ((p ++ w ++ w1) ++ (r ++ w')) by (flat; reflexivity). apply opens_no_attrs; [repeat apply layout_app; assumption|apply O].
Qed.
End S.

(** no raw value that is read has an attribute *)
Section Nested.
Context {E : Env} {X : XidOk E}.
Definition sepd_all {A} (R : A -> str -> nat -> Prop) (P : A -> Prop) (H : forall a t d, R a t d -> P a) : forall l t d, sepd R l t d -> all P l :=
  fix go l t d (HS : sepd R l t d) : all P l :=
    match HS in sepd _ l t d return all P l with
    | se_nil _ => Logic.I
    | se_one _ a t d HA => conj (H a t d HA) Logic.I
    | se_comma _ a t w d HA _ => conj (H a t d HA) Logic.I
    | se_cons _ a b l t w w' ts d d' HA _ _ HS' => conj (H a t d HA) (go _ _ _ HS')
    end.
Lemma all_combine {A B} (P : B -> Prop) : forall (Ts : list A) l, length Ts = length l -> all (fun p => P (snd p)) (combine Ts l) -> all P l.
Proof. induction Ts as [|a Ts IH]; intros [|b l] L; cbn in *; try discriminate; auto. intros [H1 H2]. split; [assumption|]. apply IH; [now injection L|assumption]. Qed.
Lemma all_in {A} (P : A -> Prop) l a : all P l -> In a l -> P a.
Proof. induction l as [|b l IH]; [contradiction|]. intros [H1 H2] [-> |IN]; auto. Qed.
Lemma struct_of_all (P : val -> Prop) opt fields ents fs : P VNone -> all (fun p => match snd p with Some v => P v | None => True end) ents ->
  struct_of opt fields ents fs -> all (fun kv => P (snd kv)) fs.
Proof.
  intros PN HA (_ & _ & F). induction F as [|[f T] [k v] fields fs H F IH]; [exact Logic.I|]. split; [|exact IH]. cbn [snd fst] in *.
  destruct H as [IN|(_ & -> & _)]; [|exact PN]. unfold given in IN. apply in_flat_map in IN as ([k' [v'|]] & IN & IN'); cbn in IN'; [|contradiction].
  destruct IN' as [Q|[]]. injection Q as -> ->. apply (all_in _ _ _ HA IN).
Qed.
Lemma acc_no_attrs e tenv : forall b T v t d, acc e tenv b T v t d -> each_raw no_attrs v.
Proof.
  fix IH 6. intros b T v t d H.
  assert (EN := fun deny fields ents t d (HS : sepd (field_text (acc e tenv false) (fun t d => exists x, vacc e false x t d) deny fields) ents t d) =>
    sepd_all _ (fun p : str * option val => match snd p with Some v => each_raw no_attrs v | None => True end)
      (fun a t d (HF : field_text (acc e tenv false) (fun t d => exists x, vacc e false x t d) deny fields a t d) =>
        match HF in field_text _ _ _ _ a t d return match snd a with Some v => each_raw no_attrs v | None => True end with
        | ft_known _ _ _ _ k T v tk w w' tv d _ _ _ _ HA => IH _ _ _ _ _ HA
        | ft_unknown _ _ _ _ k tk w w' tv d _ _ _ _ _ _ => Logic.I
        end) ents t d HS).
  destruct H as [b T v t HL|b l t w w' d _ _ _| | |name _|name t _|name|b|b T|b T v t w w' w'' d _ _ HA _|b T v t d _ _ HA|b T v w t d _ _ HA
    |name T v tn t w w' d _ _ _ HA _|b name T v t d _ HA|b T l t w w' d _ _ HS|b Ts l t t' d QL HS _|b name Ts l tn t t' d _ QL HS _
    |b KT VT es t w w' d _ _ HS|b deny name fields ents fs tn t t' d _ HS SO _|b deny name fields ns fs t _ RF|b name variants k w t _ _ _
    |b name variants k T v w0 tk w w' t w'' d _ _ _ _ _ HA _|b name variants k Ts l w0 tk w t t' d _ _ _ _ QL HS _
    |b name variants k deny fields ents fs w0 tk w t t' d _ _ _ _ HS SO _|b x t d _|b x t d _|b x p w t w' d LP LW F HV|b n v t d HA]; cbn [each_raw]; try exact Logic.I.
  - destruct HL; exact Logic.I.
  - exact (IH _ _ _ _ _ HA).
  - exact (IH _ _ _ _ _ HA).
  - exact (IH _ _ _ _ _ HA).
  - exact (IH _ _ _ _ _ HA).
  - exact (IH _ _ _ _ _ HA).
  - exact (sepd_all (acc e tenv false T) (each_raw no_attrs) (fun a t d HA => IH _ _ _ _ _ HA) _ _ _ HS).
  - exact (all_combine _ _ _ QL (sepd_all (fun p => acc e tenv false (fst p) (snd p)) (fun p => each_raw no_attrs (snd p)) (fun a t d HA => IH _ _ _ _ _ HA) _ _ _ HS)).
  - exact (all_combine _ _ _ QL (sepd_all (fun p => acc e tenv false (fst p) (snd p)) (fun p => each_raw no_attrs (snd p)) (fun a t d HA => IH _ _ _ _ _ HA) _ _ _ HS)).
  - exact (sepd_all (pair_text (acc e tenv false KT) (acc e tenv false VT)) (fun kv => each_raw no_attrs (fst kv) /\ each_raw no_attrs (snd kv))
      (fun a t d HP => match HP in pair_text _ _ a t d return each_raw no_attrs (fst a) /\ each_raw no_attrs (snd a) with
        | pt _ _ k tk dk v tv dv w w' HK _ _ HV => conj (IH _ _ _ _ _ HK) (IH _ _ _ _ _ HV) end) _ _ _ HS).
  - exact (struct_of_all (each_raw no_attrs) _ _ _ _ Logic.I (EN _ _ _ _ _ HS) SO).
  - clear EN. eapply range_fields_each, RF.
  - exact (IH _ _ _ _ _ HA).
  - exact (all_combine _ _ _ QL (sepd_all (fun p => acc e tenv false (fst p) (snd p)) (fun p => each_raw no_attrs (snd p)) (fun a t d HA => IH _ _ _ _ _ HA) _ _ _ HS)).
  - exact (struct_of_all (each_raw no_attrs) _ _ _ _ Logic.I (EN _ _ _ _ _ HS) SO).
  - apply each_raw_embed.
  - exact (raw_no_attrs _ _ _ _ _ _ _ _ LP LW F HV).
  - exact (IH _ _ _ _ _ HA).
Qed.
End Nested.
