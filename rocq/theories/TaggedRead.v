(** Reading internally tagged enums: the tag may come anywhere, the rest goes
    into the buffer. *)
From Coq Require Import String Ascii NArith ZArith Lia Bool List.
From Coq Require Import ZifyBool ZifyNat ZifyN.
From Verif Require Import Base Facts Value Data Parse De Wp EnvOk Layout Lit LexSafe LexWs LexRead DocSafe DocRead SerLex Typing Repr ReprFacts TypedRead VRepr AnyRead AnyMain Unwrap IntoRust Content ContentRead ContentMain ThmInto Tagged.
Import ListNotations.
Open Scope N_scope.
Open Scope list_scope.
Open Scope m_scope.

(** ** Texts *)
Section Text.
Context {E : Env}.
Variable u : bool.
Variable tag : str.
(** a key for the tag *)
Definition tag_key (k : value) : Prop := k = XStr tag \/ k = XBytes (enc tag).
Definition field_name (k : value) (t : str) : Prop := exists n, k = XStr n /\ ident_lit t n.
(** the tag with the name of a variant, or another entry *)
Inductive item_text (RK : value -> str -> Prop) (c : nat) : str + (value * value) -> str -> Prop :=
  | ix_tag k tk name tv w w' : tag_key k -> RK k tk -> layout w -> layout w' -> string_lit tv name ->
      item_text RK c (inl name) (tk ++ w ++ c_colon :: w' ++ tv)
  | ix_other k tk x tv w w' : ~ tag_key k -> RK k tk -> layout w -> layout w' -> crepr u c x tv ->
      item_text RK c (inr (k, x)) (tk ++ w ++ c_colon :: w' ++ tv).
(** a struct, with or without a name, or a map *)
Inductive tagged_text : nat -> list (str + (value * value)) -> str -> Prop :=
  | tx_struct c tn w l t : any_name tn -> layout w -> l <> [] -> items (item_text field_name c) l t ->
      tagged_text (S (S c)) l (tn ++ c_lp :: w ++ t ++ [c_rp])
  | tx_map c w l t : layout w -> items (item_text (crepr u c) c) l t ->
      tagged_text (S (S c)) l (c_lc :: w ++ t ++ [c_rc]).
Definition lefts {A B} (l : list (A + B)) : list A := flat_map (fun i => match i with inl a => [a] | inr _ => [] end) l.
Definition rights {A B} (l : list (A + B)) : list B := flat_map (fun i => match i with inl _ => [] | inr b => [b] end) l.
End Text.

Section WithEnv.
Context {E : Env} {X : XidOk E} {FO : FloatOk E}.
Variable e : exts.
Variable tag : str.
Variable variants : list (str * ivariant).

(** the tag with its value, or another entry *)
Definition item : Type := (str * ivariant) + (value * value).
Definition tags (l : list item) : list (str * ivariant) := lefts l.
Definition others (l : list item) : list (value * value) := rights l.
Inductive good_item (mk : M value) (c : nat) : item -> str -> Prop :=
  | gi_tag k tk v tv w w' : is_tag tag k = true -> good e mk c tk k -> layout w -> layout w' -> good e (tag_value variants) c tv v ->
      good_item mk c (inl v) (tk ++ w ++ c_colon :: w' ++ tv)
  | gi_other k tk x tv w w' : is_tag tag k = false -> good e mk c tk k -> layout w -> layout w' -> good e content_value c tv x ->
      good_item mk c (inr (k, x)) (tk ++ w ++ c_colon :: w' ++ tv).
Lemma good_item_opens mk c p t : good_item mk c p t -> forall r, opens (t ++ r).
Proof. intros [k tk v tv w w' _ [O _] _ _ _|k tk x tv w w' _ [O _] _ _ _] r; rewrite <- app_assoc; apply O. Qed.

Definition seen_after (seen : option (str * ivariant)) (l : list item) : option (str * ivariant) :=
  match seen with Some _ => seen | None => hd_error (tags l) end.
Definition at_most_one (seen : option (str * ivariant)) (l : list item) : Prop :=
  (length (tags l) + (if seen then 1 else 0) <= 1)%nat.
Lemma tr_item term mk c p tp w1 t2 (D : str -> Prop) b w0 fuel seen : closer term ->
  good_item mk c p tp -> layout w0 -> layout w1 ->
  (forall w2, layout w2 -> tr e comma false false (S c) (w2 ++ t2) D b) -> (forall r, D r -> closing (t2 ++ r)) ->
  forall l t3 D3, at_most_one seen (p :: l) ->
  (forall seen', at_most_one seen' l -> tr e (tagged_loop tag variants fuel term mk seen' b) false false (S c) t3 D3 (seen_after seen' l, others l)) ->
  (forall r, D3 r -> D (t3 ++ r)) ->
  tr e (tagged_loop tag variants (S fuel) term mk seen true) false false (S c) (w0 ++ tp ++ w1 ++ t2 ++ t3) D3 (seen_after seen (p :: l), others (p :: l)).
Proof.
  intros C G L0 L1 CM HD l t3 D3 AM NX HD3. unfold at_most_one in *. cbn [tagged_loop].
  destruct G as [k tk v tv w w' IT GK L L' GV|k tk x tv w w' IT GK L L' GV].
  - eapply tr_text; [eapply (trw_bind e _ _ false (S c) (w0 ++ tk) w (c_colon :: w' ++ tv ++ w1 ++ t2 ++ t3) D3 (Some k))|texts];
      [now apply trw_key|assumption|intros r _; cbn; tauto|].
    intros w2 LW2. rewrite IT. destruct seen as [v'|]; [exfalso; cbn [tags lefts flat_map app length] in AM; lia|].
    eapply tr_text; [refine (tr_bind e _ _ false false false (S c) (w2 ++ c_colon :: w' ++ tv ++ w1 ++ t2) t3 D D3 (v, b) _ _ _ HD3)|texts].
    + apply tr_colon; auto.
    + cbn [fst snd]. cbn [others rights flat_map app]. apply (NX (Some v)). cbn [tags lefts flat_map app length] in AM. fold (lefts l) in AM. fold (tags l) in AM. lia.
  - eapply tr_text; [eapply (trw_bind e _ _ false (S c) (w0 ++ tk) w (c_colon :: w' ++ tv ++ w1 ++ t2 ++ t3) D3 (Some k))|texts];
      [now apply trw_key|assumption|intros r _; cbn; tauto|].
    intros w2 LW2. rewrite IT.
    eapply tr_text; [refine (tr_bind e _ _ false false false (S c) (w2 ++ c_colon :: w' ++ tv ++ w1 ++ t2) t3 D D3 (x, b) _ _ _ HD3)|texts].
    + apply tr_colon; auto.
    + cbn [fst snd]. eapply tr_bind_l with (D1 := D3); [apply (NX seen); exact AM| |auto]. cbn [fst snd]. apply tr_ret.
Qed.
Lemma tr_tagged_loop term mk c l t : closer term -> items (good_item mk c) l t ->
  forall fuel w0 had seen, layout w0 -> (length l < fuel)%nat -> (had = true \/ l = []) -> at_most_one seen l ->
  tr e (tagged_loop tag variants fuel term mk seen had) false false (S c) (w0 ++ t) (begins term) (seen_after seen l, others l).
Proof.
  intros C. assert (NIL : forall fuel w0 had seen, layout w0 -> (0 < fuel)%nat ->
    tr e (tagged_loop tag variants fuel term mk seen had) false false (S c) w0 (begins term) (seen_after seen [], others [])).
  { intros [|fuel] w0 had seen L0 F; [lia|]. cbn [tagged_loop]. eapply tr_bind_l; [apply tr_no_key; assumption| |auto]. cbv iota. 
    replace (seen_after seen []) with seen by now destruct seen. apply tr_ret. }
  induction 1 as [|a t w G L|a t w w' l ts G L L' I IH]; intros fuel w0 had seen L0 F H AM; cbn [length] in F.
  - rewrite app_nil_r. now apply NIL.
  - destruct H as [->|H]; [|discriminate]. destruct fuel as [|fuel]; [lia|].
    eapply tr_text; [apply (tr_item term mk c a t w [] (begins term) false w0 fuel seen C G L0 L) with (t3 := []) (D3 := begins term)|rewrite !app_nil_r; reflexivity]; auto.
    + intros w2 LW2. rewrite app_nil_r. now apply tr_no_comma.
    + intros r. apply closing_begins. cbn in *. tauto.
    + intros seen' _. apply NIL; [constructor|lia].
  - destruct H as [->|H]; [|discriminate]. destruct fuel as [|fuel]; [lia|].
    eapply tr_text; [apply (tr_item term mk c a t w (c_comma :: w') solid true w0 fuel seen C G L0 L) with (t3 := ts) (D3 := begins term)|texts]; auto.
    + intros w2 LW2. now apply tr_comma.
    + cbn. tauto.
    + intros seen' AM'. apply (IH fuel [] true seen' l_nil); [lia|now left|exact AM'].
    + intros r HB. eapply items_solid; [|exact I|now apply closer_solid with term]. intros a' t' G'. eapply good_item_opens; exact G'.
Qed.
Lemma tr_tagged_map term mk c l t v w0 : closer term -> items (good_item mk c) l t -> layout w0 -> tags l = [v] ->
  tr e (tagged_map tag variants term mk) false false (S c) (w0 ++ t) (begins term) (v, XMap (others l)).
Proof.
  intros C I L0 TG. unfold tagged_map. apply tr_src. intros r HB.
  eapply tr_bind_l with (D1 := begins term) (a := (Some v, others l)).
  - assert (Q : seen_after None l = Some v) by (unfold seen_after; now rewrite TG). rewrite <- Q. apply tr_tagged_loop; auto.
    + assert (H := items_length _ _ _ (good_item_opens mk c) I). rewrite !app_length. unfold str, char in *. lia.
    + unfold at_most_one. rewrite TG. cbn. lia.
  - apply tr_ret.
  - now intros r' ->.
Qed.

(** ** The dispatch *)
Definition tagged_tail : M ((str * ivariant) * value) :=
  id <- skip_identifier ;;
  match id with
  | Some _ => skip_ws ;;; tagged_struct tag variants
  | None =>
      c <- peek_char_or_eof ;;
      if c =? c_lp then tagged_struct tag variants
      else if c =? c_lb then de_seq (tagged_seq tag variants c_rb)
      else if c =? c_lc then de_map (tagged_map tag variants c_rc content_value)
      else if is_digit c || (c =? c_plus) || (c =? c_minus) || (c =? c_dot) || (c =? c_b)
      then untaggable tag any_number_or_bytes
      else if (c =? c_dq) || (c =? c_r) then parse_string ;;; fail EInvalidValueForType
      else if c =? c_sq then parse_char ;;; fail EInvalidValueForType
      else fail (EUnexpectedChar c)
  end.
Lemma tagged_main_skip s : no_word (rest s) -> starts_with s_unit (rest s) = false -> tagged_main tag variants s = tagged_tail s.
Proof.
  intros W U. unfold tagged_main.
  assert (CI : forall w, In w keywords -> consume_ident w s = Ok false s) by (intros w IN; now apply consume_ident_false, W).
  do 2 (unfold bind at 1; rewrite CI by (cbn; tauto)).
  unfold bind at 1. rewrite check_ident_eq, W by (cbn; tauto). cbv iota.
  unfold bind at 1; rewrite CI by (cbn; tauto).
  unfold bind at 1. rewrite consume_str_eq. unfold starts_with in U. destruct (strip_prefix s_unit (rest s)); [discriminate|].
  unfold bind at 1. rewrite CI by (cbn; tauto). unfold bind at 1. rewrite CI by (cbn; tauto).
  unfold bind at 1. rewrite CI by (cbn; tauto).
  unfold bind at 1. rewrite CI by (cbn; tauto). unfold bind at 1. rewrite CI by (cbn; tauto).
  unfold bind at 1. rewrite CI by (cbn; tauto). reflexivity.
Qed.
Lemma tagged_main_noid s c t r : noid (c :: t) -> ~ In c word_heads -> starts_with s_unit ((c :: t) ++ r) = false -> rest s = (c :: t) ++ r ->
  tagged_main tag variants s = (if c =? c_lp then tagged_struct tag variants
      else if c =? c_lb then de_seq (tagged_seq tag variants c_rb)
      else if c =? c_lc then de_map (tagged_map tag variants c_rc content_value)
      else if is_digit c || (c =? c_plus) || (c =? c_minus) || (c =? c_dot) || (c =? c_b)
      then untaggable tag any_number_or_bytes
      else if (c =? c_dq) || (c =? c_r) then parse_string ;;; fail EInvalidValueForType
      else if c =? c_sq then parse_char ;;; fail EInvalidValueForType
      else fail (EUnexpectedChar c)) s.
Proof.
  intros NI NW NU Hs. rewrite tagged_main_skip; rewrite ?Hs; [|now apply no_word_head|exact NU].
  unfold tagged_tail. unfold bind at 1. rewrite (NI s r Hs). unfold bind at 1, peek_char_or_eof, bind, peek_char. now rewrite Hs.
Qed.
Lemma tr_tagged_body c tn body x : any_name tn -> (tn = [] -> starts_with s_unit (c_lp :: body) = false /\ body <> []) ->
  tr e (tagged_struct tag variants) false false c (c_lp :: body) anything x ->
  tr e (tagged_main tag variants) false false c (tn ++ c_lp :: body) anything x.
Proof.
  intros HN NE H. destruct HN as [|t n w HI NK L].
  - destruct (NE eq_refl) as [SU NB]. eapply tr_eq; [|exact H]. intros s r _ Hs.
    assert (N0 : noid (c_lp :: body)) by (apply noid_head; [now apply not_first|discriminate]).
    rewrite (tagged_main_noid s c_lp body r N0); [reflexivity|cbn; intuition discriminate| |exact Hs].
    cbn [app]. destruct body as [|b body]; [congruence|]. unfold starts_with in *. change s_unit with [c_lp; c_rp] in *. cbn [strip_prefix app] in *.
      destruct (c_lp =? c_lp); [|reflexivity]. now destruct (c_rp =? b).
  - eapply tr_eq with (m' := tagged_tail).
    { intros s r _ Hs. apply tagged_main_skip; rewrite Hs, <- !app_assoc.
      - eapply no_word_ident; [exact HI|assumption|]. cbn [app]. now apply lp_ident_end.
      - eapply ident_not_unit; eassumption. }
    unfold tagged_tail. eapply tr_text with (t := t ++ w ++ c_lp :: body); [|texts].
    apply (tr_bind e _ _ false false false c t (w ++ c_lp :: body) ident_end anything (Some n)); [now apply tr_lex, reads_skip_identifier| |].
    + refine (tr_bind e _ _ false false false c w (c_lp :: body) solid anything tt _ _ _ _); [now apply tr_ws|exact H|].
      intros r _. apply solid_char; reflexivity || discriminate.
    + intros r _. rewrite <- app_assoc. now apply lp_ident_end.
Qed.

(** ** The pieces *)
Local Notation u := (x_unwrap_variant_newtypes e).
Lemma good_content c x t : crepr u c x t -> good e content_value c t x.
Proof.
  intros H. split; [intros r; eapply crepr_opens; exact H|]. intros T s r K HR HK J Hs He Hn Hl. unfold content_value.
  eapply wp_bind_ok; [reflexivity|]. replace (2 * length (rest s) + 3)%nat with (S (2 * length (rest s) + 2)) by lia.
  destruct (creads_good e (2 * length (rest s) + 2)%nat c x t (crepr_reads e c x t H)) as [_ TW]; [rewrite Hs, app_length; unfold str, char in *; lia|].
  now apply (TW T s r K).
Qed.
Lemma good_tag c name tv iv : NoDup (map fst variants) -> In (name, iv) variants -> string_lit tv name -> good e (tag_value variants) c tv (name, iv).
Proof.
  intros ND IN H. apply good_tr; [intros r; apply (crepr_opens false 0 (XStr name) tv); now apply c_str|]. unfold tag_value.
  eapply tr_bind_l with (D1 := anything); [apply tr_lex, reads_string; exact H| |now intros].
  unfold variant_of. rewrite (assoc_find name variants iv) by (now apply TypedRead.assoc_in). apply tr_ret.
Qed.
Lemma is_tag_key k : is_tag tag k = true <-> tag_key tag k.
Proof.
  unfold tag_key. split.
  - destruct k; try discriminate; cbn [is_tag]; intros H; apply str_eqb_eq in H; subst; auto.
  - intros [-> | ->]; cbn; apply str_eqb_refl.
Qed.
Lemma not_tag_key k : ~ tag_key tag k -> is_tag tag k = false.
Proof. intros H. destruct (is_tag tag k) eqn:Q; [|reflexivity]. now apply is_tag_key in Q. Qed.
Lemma good_items (RK : value -> str -> Prop) mk c (l : list (str + (value * value))) t name iv : NoDup (map fst variants) -> In (name, iv) variants -> lefts l = [name] ->
  (forall k t, RK k t -> good e mk c t k) -> items (item_text u tag RK c) l t ->
  exists l', items (good_item mk c) l' t /\ tags l' = [(name, iv)] /\ others l' = rights l.
Proof.
  intros ND IN NM HK HI.
  assert (G : forall p t, item_text u tag RK c p t -> (forall n, p = inl n -> n = name) -> exists p', good_item mk c p' t /\
    match p with inl _ => p' = inl (name, iv) | inr q => p' = inr q end).
  { intros p t0 [k tk n tv w w' TK HKT L L' SL|k tk x tv w w' TK HKT L L' HX] HN.
    - rewrite (HN n eq_refl) in SL. eexists. split; [|reflexivity]. econstructor; eauto; [now apply is_tag_key|now apply good_tag].
    - eexists. split; [|reflexivity]. apply gi_other; auto; [now apply not_tag_key|now apply good_content]. }
  assert (ALL : forall n, In (inl n) l -> n = name).
  { intros n I0. assert (I1 : In n (lefts l)) by (unfold lefts; apply in_flat_map; exists (inl n); split; [exact I0|now left]). rewrite NM in I1. cbn in I1. destruct I1 as [->|[]]; reflexivity. }
  assert (Y : exists l', items (good_item mk c) l' t /\ tags l' = map (fun _ => (name, iv)) (lefts l) /\ others l' = rights l).
  { clear NM. induction HI as [|a t w H L|a t w w' l ts H L L' I0 IH].
    - exists []. repeat split. constructor.
    - destruct (G a t H) as (p' & G' & Q); [intros n ->; apply ALL; now left|]. exists [p']. split; [now apply it_last|].
      destruct a; subst p'; split; reflexivity.
    - destruct IH as (l' & I' & T' & O'); [intros n I1; apply ALL; now right|].
      destruct (G a t H) as (p' & G' & Q); [intros n ->; apply ALL; now left|]. exists (p' :: l'). split; [now apply it_cons|].
      unfold tags, others, lefts, rights in *. destruct a; subst p'; cbn [flat_map app map]; rewrite T', O'; split; reflexivity. }
  destruct Y as (l' & I' & T' & O'). exists l'. rewrite NM in T'. auto.
Qed.

(** ** Reading *)
Lemma tr_tagged_named c l t v w : layout w -> l <> [] -> items (item_text u tag field_name c) l t ->
  tr e (tagged_map tag variants c_rp (k <- de_identifier ;; ret (XStr k))) false false (S c) (w ++ t) (begins c_rp) v ->
  tr e (tagged_struct tag variants) false false (S (S c)) (c_lp :: w ++ t ++ [c_rp]) anything v.
Proof.
  intros L NE HI TM T s r J Hs _ He Hn Hl. unfold tagged_struct. apply wp_bind.
  assert (F : exists ti n w1 t', ident_lit ti n /\ layout w1 /\ t = ti ++ w1 ++ c_colon :: t').
  { destruct HI as [|a ta w1 H L1|a ta w1 w2 l ts H L1 L2 HI]; [congruence|..];
      (destruct H as [k tk name tv w3 w4 TK (n & -> & HK) L3 L4 HV|k tk x tv w3 w4 TK (n & -> & HK) L3 L4 HV]); exists tk, n, w3; eexists;
      (split; [exact HK|]); (split; [assumption|]); texts. }
  destruct F as (ti & n & w1 & t' & HK & L1 & EQ).
  eapply wp_conseq with (Q := fun ty s' => ty = Named /\ rest s' = rest s /\ adv T s s') (R := fun _ _ => False); [| |auto].
  - eapply check_type_look with (w := w) (r := ti ++ w1 ++ c_colon :: t' ++ c_rp :: r); [assumption|rewrite Hs, EQ; texts|assumption|eapply ident_opens; eassumption|].
    intros s' A' R'. eapply look_named; [exact HK|exact L1|apply A'|exact R'].
  - cbn beta. intros ty s1 (-> & R1 & A1).
    assert (HT : tr e (struct_after_name [] (tagged_map tag variants c_rp (k <- de_identifier ;; ret (XStr k)))) false false (S (S c))
       (parens false ((w ++ t) ++ [])) (after_parens false) v).
    { eapply tr_struct_after_name with (D := begins c_rp); [exact TM|constructor|auto]. }
    destruct (adv_keeps T s s1 A1) as (K1 & K2 & K3). rewrite <- K3.
    apply (HT T s1 r); [apply A1|rewrite R1, Hs; cbn [parens]; rewrite app_nil_r; texts|exact Logic.I|congruence|congruence|rewrite K3; assumption].
Qed.
Theorem tr_tagged c l t name iv : NoDup (map fst variants) -> In (name, iv) variants -> lefts l = [name] -> tagged_text u tag c l t ->
  tr e (tagged_main tag variants) false false c t anything ((name, iv), XMap (rights l)).
Proof.
  intros ND IN NM H. destruct H as [c tn w l t AN L NE HI|c w l t L HI].
  - destruct (good_items field_name (k <- de_identifier ;; ret (XStr k)) c l t name iv ND IN NM) as (l' & I' & T' & O'); [|exact HI|].
    { intros k t0 (n & -> & HK). now apply good_ident. }
    rewrite <- O'. apply tr_tagged_body; [exact AN| |].
    + intros _. split; [|now destruct w; destruct t]. apply lp_not_unit; [exact L|]. right.
      destruct HI as [|a ta w1 H L1|a ta w1 w2 l ts H L1 L2 HI]; [congruence|..];
      (destruct H as [k tk n0 tv w3 w4 TK (n & -> & HK) L3 L4 HV|k tk x tv w3 w4 TK (n & -> & HK) L3 L4 HV]); rewrite <- !app_assoc; eapply ident_opens; exact HK.
    + eapply tr_tagged_named; [exact L|exact NE|exact HI|]. apply tr_tagged_map; auto. cbn. tauto.
  - destruct (good_items (crepr u c) content_value c l t name iv ND IN NM) as (l' & I' & T' & O'); [apply good_content|exact HI|].
    rewrite <- O'. eapply tr_eq with (m' := de_map (tagged_map tag variants c_rc content_value)).
    { intros s r _ Hs. assert (N0 : noid (c_lc :: w ++ t ++ [c_rc])) by (apply noid_head; [now apply not_first|discriminate]).
      rewrite (tagged_main_noid s c_lc _ r N0); [reflexivity|cbn; intuition discriminate|reflexivity|exact Hs]. }
    eapply tr_text; [apply tr_de_map with (tb := w ++ t), tr_tagged_map; [cbn; tauto|exact I'|exact L|exact T']|texts].
Qed.
End WithEnv.
