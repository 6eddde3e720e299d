(** Texts that are read into serde's buffer, and reading them.

    The look-ahead that tells a value in the parentheses of a variant from the
    fields of a tuple or struct variant is the one of [Unwrap]; here it also
    meets identifiers, and more than one value. *)
From Coq Require Import String Ascii NArith ZArith Lia Bool List.
From Coq Require Import ZifyBool ZifyNat ZifyN.
From Verif Require Import Base Facts Value Data Parse De Wp EnvOk Layout Lit LexSafe LexWs LexRead DocSafe DocRead SerLex Typing Repr ReprFacts TypedRead VRepr AnyRead AnyMain Unwrap IntoRust Content.
Import ListNotations.
Open Scope N_scope.
Open Scope list_scope.
Open Scope m_scope.

(** ** The texts *)
Section Arg.
Context {E : Env}.
(** The inside of the parentheses of a variant: nothing, a value, or at least
    two fields of a tuple, or at least one of a struct.  The index counts the
    nested calls that the recursion limit has to allow. *)
Variable R : nat -> value -> str -> Prop.
Inductive carg : nat -> value -> str -> Prop :=
  | ca_unit c : carg c XUnit []
  | ca_one c x t : R c x t -> carg c x t
  | ca_tuple c l t w : (2 <= length l)%nat -> layout w -> neat (R c) l t -> carg (S (S c)) (XSeq l) (w ++ t)
  | ca_struct c fs t w : fs <> [] -> layout w -> neat (neat_entry field_key_text (R c)) fs t -> carg (S (S c)) (XMap (map as_entry fs)) (w ++ t).
End Arg.
Definition carg_mono {E : Env} (R R' : nat -> value -> str -> Prop) (H : forall c x t, R c x t -> R' c x t) : forall c x t, carg R c x t -> carg R' c x t :=
  fun c x t h => match h in carg _ c x t return carg R' c x t with
    | ca_unit _ c => ca_unit R' c
    | ca_one _ c x t h => ca_one R' c x t (H c x t h)
    | ca_tuple _ c l t w N L h => ca_tuple R' c l t w N L (neat_mono _ _ (H c) l t h)
    | ca_struct _ c fs t w N L h => ca_struct R' c fs t w N L (neat_mono _ _ (neat_entry_mono _ _ _ _ (fun _ _ k => k) (H c)) fs t h)
    end.

Section WithEnv.
Context {E : Env} {X : XidOk E} {FO : FloatOk E}.

(** [u]: is unwrap_variant_newtypes on? *)
Inductive crepr (u : bool) : nat -> value -> str -> Prop :=
  | c_bool c b : crepr u c (XBool b) (if b : bool then s_true else s_false)
  | c_num c n t : num_text n t -> wide_num (XNum n) = false -> crepr u c (XNum n) t
  | c_range c x t : range_lit x t -> wide x = false -> crepr u c x t
  | c_char c x t : char_lit t x -> crepr u c (XChar x) t
  | c_str c s t : string_lit t s -> crepr u c (XStr s) t
  | c_bytes c b t : bytes_lit t b -> crepr u c (XBytes b) t
  | c_unit c : crepr u c XUnit s_unit
  | c_none c : crepr u c XNone s_None
  (* a variant; its depth is not counted *)
  | c_unit_variant c n t : ident_lit t n -> ~ In t keywords -> crepr u c (XStr n) t
  | c_variant c n ti x t : ident_lit ti n -> ~ In ti keywords -> carg (crepr u) c x t ->
      crepr u c (XMap [(XStr n, x)]) (ti ++ c_lp :: t ++ [c_rp])
  | c_some c x t : u = false -> crepr u c x t -> crepr u (S c) (XSome x) (s_Some ++ c_lp :: t ++ [c_rp])
  | c_some_unwrapped c x t : u = true -> carg (crepr u) c x t -> crepr u (S c) (XSome x) (s_Some ++ c_lp :: t ++ [c_rp])
  | c_seq c l t w : layout w -> neat (crepr u c) l t -> crepr u (S (S c)) (XSeq l) (c_lb :: w ++ t ++ [c_rb])
  | c_map c es t w : layout w -> neat (neat_entry (crepr u c) (crepr u c)) es t -> crepr u (S (S c)) (XMap es) (c_lc :: w ++ t ++ [c_rc])
  | c_tuple c l t w : l <> [] -> layout w -> neat (crepr u c) l t -> crepr u (S (S c)) (XSeq l) (c_lp :: w ++ t ++ [c_rp])
  | c_struct c fs t w : fs <> [] -> layout w -> neat (neat_entry field_key_text (crepr u c)) fs t ->
      crepr u (S (S c)) (XMap (map as_entry fs)) (c_lp :: w ++ t ++ [c_rp]).

Lemma crepr_opens u c x t r : crepr u c x t -> opens (t ++ r).
Proof.
  intros H. destruct H as [c b|c n t H _|c x t H _|c x t H|c s t H|c b t H|c|c|c n t H _|c n ti x t H _ _|c x t _ _|c x t _ _|c l t w _ _|c es t w _ _|c l t w _ _ _|c fs t w _ _ _];
    [destruct b|eapply num_opens; eassumption|eapply range_opens; eassumption|destruct H|destruct H|destruct H|..]; try (split; reflexivity || (cbn; intuition discriminate)).
  - eapply ident_opens; eassumption.
  - rewrite <- app_assoc. eapply ident_opens; eassumption.
Qed.

(** ** The look-ahead *)
Lemma raw_char_tame c : is_ident_raw_char c = true -> tame c = true.
Proof.
  intros H. destruct (128 <=? c) eqn:HC.
  - unfold tame. rewrite HC. destruct (is_ws_char c) eqn:W; [|cbn [negb andb]; now rewrite orb_true_r].
    exfalso. apply ws_not_xid in W. unfold is_ident_raw_char in H. rewrite W in H. lia.
  - unfold is_ident_raw_char in H. rewrite xid_continue_ascii in H by lia. unfold tame in *. lia.
Qed.
Lemma raw_miss_hash n r T s : n <> [] -> forallb tame n = true -> inv T s -> rest s = c_hash :: n ++ r ->
  wp raw_byte_buf (fun _ _ => False) (fun e s' => e = EExpectedString /\ adv T s s') s.
Proof.
  intros NE TN J Hs. destruct n as [|a n]; [congruence|]. cbn [forallb] in TN. apply andb_prop in TN as [TA _]. cbn [app] in Hs.
  assert (QA : (a =? c_hash) = false /\ (a =? c_dq) = false) by (unfold tame, is_alpha, is_digit in TA; lia). destruct QA as [QA QD].
  unfold raw_byte_buf. eapply wp_bind_ok with (a := 1%nat) (s' := s).
  { unfold next_chars_while_len, next_chars_while_from_len, bind, src. rewrite Hs. cbn [bdrop of_slice takewhile]. unfold ret. change (c_hash =? c_hash) with true. cbv iota. cbn [takewhile]. rewrite QA. reflexivity. }
  eapply wp_bind_ok; [reflexivity|]. eapply wp_bind_ok with (a := [c_hash]) (s' := s); [rewrite Hs; reflexivity|].
  apply wp_bind. eapply wp_reads with (txt := [c_hash]); [apply reads_advance; reflexivity|exact J|exact Hs|exact Logic.I|]. intros s1 R1 A1.
  unfold expect_char. apply wp_bind, wp_bind.
  eapply wp_reads; [apply (reads_consume_char_false c_dq)|apply A1|exact R1|exact QD|].
  intros s2 R2 A2. apply wp_fail. split; [reflexivity|eapply adv_trans; eassumption].
Qed.
Lemma calm_raw n r : n <> [] -> forallb tame n = true -> calm (c_r :: c_hash :: n ++ r).
Proof.
  intros NE TN. split; [now apply misses_char|]. split.
  - intros T s J Hs. unfold parse_string. apply wp_bind.
    eapply wp_reads; [apply (reads_consume_char_false c_dq)|exact J|exact Hs|reflexivity|]. intros s1 R1 A1. apply wp_bind.
    eapply wp_reads; [apply (reads_consume_char c_r)|apply A1|exact R1|exact Logic.I|]. intros s2 R2 A2. unfold raw_string, finish_string.
    apply wp_bind. eapply wp_conseq; [apply (raw_miss_hash n r T s2); [exact NE|exact TN|apply A2|exact R2]|contradiction|]. cbn beta. intros e s3 (-> & A3).
    split; [reflexivity|]. eapply adv_trans; [exact A1|]. eapply adv_trans; eassumption.
  - apply misses_bytes. split; [reflexivity|]. intros r' [=].
Qed.
Lemma inner_ident res d t n r : ident_lit t n -> ends_word r -> loops res (S d) r -> inner res d (t ++ r).
Proof.
  intros H EW HL. destruct H as [c n F1 F2|n NE F].
  - apply inner_word; [|discriminate|exact EW|exact HL].
    assert (XC : forallb xid_continue (c :: n) = true) by (cbn [forallb]; rewrite (first_continue c) by assumption; assumption).
    rewrite forallb_forall in *. intros a IN. apply raw_char_tame. unfold is_ident_raw_char. rewrite (XC a IN). now rewrite orb_true_r.
  - assert (TN : forallb tame n = true) by (rewrite forallb_forall in *; intros a IN; now apply raw_char_tame, F).
    apply inner_after. split; [now apply calm_raw|]. cbn [app]. apply steps_to with (d' := S d); [|reflexivity|discriminate].
    apply (loops_inner res d []); [constructor|split; [reflexivity|discriminate]|].
    apply inner_after. split.
    + apply quiet_calm. split; [reflexivity|]. split; split; try reflexivity; intros ? [=].
    + apply steps_to with (d' := S d); [|reflexivity|discriminate].
      apply (loops_inner res d []); [constructor| |now apply inner_word].
      destruct n as [|a n]; [congruence|]. cbn [forallb] in TN. apply andb_prop in TN as [TA _]. now apply tame_solid.
Qed.
Lemma ident_scans t n : ident_lit t n -> scans t.
Proof. intros H. split; [intros r; eapply ident_opens; eassumption|]. intros res d r B. eapply inner_ident; [exact H|apply B|apply B]. Qed.

(** the inside of parentheses *)
Definition arg_scans (t : str) : Prop := forall res d r, loops res (S d) r -> loops res (S (S d)) (t ++ c_rp :: r).
Lemma carg_scans (R : nat -> value -> str -> Prop) c x t : (forall c x t, R c x t -> scans t) -> carg R c x t -> arg_scans t.
Proof.
  intros HR H res d r HL. assert (BC : beyond res (S d) (c_rp :: r)) by (apply loops_close; [cbn; tauto|exact HL]).
  assert (SO : solid (c_rp :: r)) by (split; [reflexivity|discriminate]).
  destruct H as [c|c x t H|c l t w N L H|c fs t w N L H].
  - apply BC.
  - apply (loops_scan res (S d) [] t); [constructor|eapply HR; exact H|exact BC].
  - rewrite <- app_assoc. apply (neat_scans (R c) res d l t); [exact H|intros a ta; apply HR|exact L|exact SO|exact BC].
  - rewrite <- app_assoc. apply (neat_scans (neat_entry field_key_text (R c)) res d fs t); [exact H| |exact L|exact SO|exact BC].
    intros a ta HE. apply entry_scans with a. eapply neat_entry_mono; [| |exact HE].
    + intros k tk HK. eapply ident_scans; exact HK.
    + intros v tv. apply HR.
Qed.
Lemma parens_scan res d t r : arg_scans t -> loops res (S d) r -> loops res (S d) (c_lp :: t ++ c_rp :: r).
Proof.
  intros H HL. apply (loops_inner res d []); [constructor|split; [reflexivity|discriminate]|]. apply inner_open; [cbn; tauto|]. now apply H.
Qed.
Lemma range_tame x t : range_lit x t -> forallb tame t = true.
Proof.
  destruct 1; rewrite ?forallb_app; repeat match goal with H : num_text _ _ |- _ => rewrite (num_tame _ _ H); clear H end; reflexivity.
Qed.
Fixpoint crepr_scans u c x t (H : crepr u c x t) {struct H} : scans t.
Proof.
  assert (O := fun r => crepr_opens u c x t r H). split; [exact O|]. intros res d r B.
  destruct H as [c b|c n t H _|c x t H _|c x t H|c s t H|c b t H|c|c|c n t H _|c n ti x t HI _ H|c x t _ H|c x t _ H|c l t w L H|c es t w L H|c l t w N L H|c fs t w N L H].
  - apply inner_word; [now destruct b|now destruct b|apply B|apply B].
  - apply inner_word; [eapply num_tame; eassumption| |apply B|apply B]. intros ->. exact (O []).
  - apply inner_word; [eapply range_tame; eassumption| |apply B|apply B]. intros ->. exact (O []).
  - eapply inner_char; [exact H|apply B].
  - eapply inner_string; [exact H|apply B].
  - eapply inner_bytes; [exact H|apply B].
  - change (s_unit ++ r) with (c_lp :: c_rp :: r). apply inner_open; [cbn; tauto|]. apply (loops_close res (S d) c_rp r); [cbn; tauto|apply B].
  - apply inner_word; [reflexivity|discriminate|apply B|apply B].
  - eapply inner_ident; [exact H|apply B|apply B].
  - rewrite <- app_assoc. eapply inner_ident; [exact HI|reflexivity|]. cbn [app]. rewrite <- app_assoc. apply parens_scan; [|apply B].
    apply (carg_scans (fun _ _ t => scans t) c x t); [auto|]. exact (carg_mono _ _ (fun c x t h => crepr_scans u c x t h) c x t H).
  - rewrite <- app_assoc. apply inner_word; [reflexivity|discriminate|reflexivity|]. cbn [app]. rewrite <- app_assoc. apply parens_scan; [|apply B].
    apply (carg_scans (fun _ _ t => scans t) c x t); [auto|]. apply ca_one. exact (crepr_scans u c x t H).
  - rewrite <- app_assoc. apply inner_word; [reflexivity|discriminate|reflexivity|]. cbn [app]. rewrite <- app_assoc. apply parens_scan; [|apply B].
    apply (carg_scans (fun _ _ t => scans t) c x t); [auto|]. exact (carg_mono _ _ (fun c x t h => crepr_scans u c x t h) c x t H).
  - cbn [app]. apply inner_open; [cbn; tauto|]. rewrite <- !app_assoc.
    apply (neat_scans (fun _ t => scans t) res d l t); [exact (neat_mono _ _ (fun x t h => crepr_scans u c x t h) l t H)|auto|exact L|split; [reflexivity|discriminate]|].
    apply loops_close; [cbn; tauto|apply B].
  - cbn [app]. apply inner_open; [cbn; tauto|]. rewrite <- !app_assoc.
    apply (neat_scans (neat_entry (fun _ t => scans t) (fun _ t => scans t)) res d es t); [exact (neat_mono _ _ (neat_entry_mono _ _ _ _ (fun x t h => crepr_scans u c x t h) (fun x t h => crepr_scans u c x t h)) es t H)|intros a ta; now apply entry_scans|exact L|split; [reflexivity|discriminate]|].
    apply loops_close; [cbn; tauto|apply B].
  - cbn [app]. apply inner_open; [cbn; tauto|]. rewrite <- !app_assoc.
    apply (neat_scans (fun _ t => scans t) res d l t); [exact (neat_mono _ _ (fun x t h => crepr_scans u c x t h) l t H)|auto|exact L|split; [reflexivity|discriminate]|].
    apply loops_close; [cbn; tauto|apply B].
  - cbn [app]. apply inner_open; [cbn; tauto|]. rewrite <- !app_assoc.
    apply (neat_scans (neat_entry (fun _ t => scans t) (fun _ t => scans t)) res d fs t); [exact (neat_mono _ _ (neat_entry_mono _ _ _ _ (fun k t h => ident_scans t k h) (fun x t h => crepr_scans u c x t h)) fs t H)|intros a ta; now apply entry_scans|exact L|split; [reflexivity|discriminate]|].
    apply loops_close; [cbn; tauto|apply B].
Qed.

(** a value is no identifier, or one that is followed by nothing or by a
    parenthesis, or a word followed by dots *)
Definition ilead (t : str) : Prop :=
  noid t \/ (exists ti n, ident_lit ti n /\ (t = ti \/ exists t', t = ti ++ c_lp :: t' ++ [c_rp] /\ arg_scans t')) \/
  exists w x t', In (w, x) float_words /\ t = w ++ c_dot :: t' /\ forallb tame t' = true.
Lemma ilead_lead t : ilead t -> lead t.
Proof.
  intros [H|[(ti & n & HI & [->|(t' & -> & _)])|(w & x & t' & IN & -> & _)]]; [now left|right; left..|right; right; eauto]; exists ti, n; split; auto.
  right. exists [], (t' ++ [c_rp]). split; [constructor|reflexivity].
Qed.
Lemma crepr_ilead u c x t : crepr u c x t -> ilead t.
Proof.
  assert (W : forall w, In w keywords -> ilead w) by (intros w IN; right; left; exists w, w; split; [now apply word_ident|now left]).
  assert (ARG : forall c x t, carg (crepr u) c x t -> arg_scans t).
  { intros c0 x0 t0 H. eapply carg_scans; [|exact H]. intros c1 x1 t1. apply crepr_scans. }
  intros H. destruct H as [c b|c n t H _|c x t H _|c x t H|c s t H|c b t H|c|c|c n t H _|c n ti x t HI _ H|c x t _ H|c x t _ H|c l t w L H|c es t w L H|c l t w N L H|c fs t w N L H].
  - apply W. destruct b; cbn; tauto.
  - destruct (num_text_head n t H) as [(a & t' & -> & HC)|HI].
    + left. apply noid_head; [apply not_first; unfold is_alpha, is_digit in *; lia|unfold is_digit in HC; lia].
    + apply W. cbn in *. repeat (destruct HI as [HI|HI]; [injection HI as <- _; tauto|]). contradiction.
  - assert (RL : forall n t u, num_text n t -> forallb tame u = true -> ilead (t ++ c_dot :: u)).
    { intros n t0 v HN HT. destruct (num_text_head n t0 HN) as [(a & t' & -> & HC)|HI].
      - left. apply noid_head; [apply not_first; unfold is_alpha, is_digit in *; lia|unfold is_digit in HC; lia].
      - right. right. eauto 10. }
    assert (DL : forall u, ilead (c_dot :: u)) by (intros v; left; apply noid_head; [now apply not_first|discriminate]).
    destruct H as [a b ta tb HA HB _|a b ta tb HA HB|a ta HA|b tb _ _|b tb _|];
      [apply (RL _ _ (c_dot :: tb) HA)|apply (RL _ _ ([c_dot; c_eq] ++ tb) HA)|apply (RL _ _ [c_dot] HA)|apply DL..];
      try reflexivity; cbn [app forallb]; now rewrite (num_tame _ _ HB).
  - left. eapply noid_char; eassumption.
  - left. eapply noid_str; eassumption.
  - left. eapply noid_bytes; eassumption.
  - left. apply noid_head; [now apply not_first|discriminate].
  - apply W. cbn; tauto.
  - right. left. exists t, n. auto.
  - right. left. exists ti, n. split; [exact HI|]. right. exists t. split; [reflexivity|]. now apply (ARG c x).
  - right. left. exists s_Some, s_Some. split; [apply word_ident; cbn; tauto|]. right. exists t. split; [reflexivity|]. apply (ARG c x). now apply ca_one.
  - right. left. exists s_Some, s_Some. split; [apply word_ident; cbn; tauto|]. right. exists t. split; [reflexivity|]. now apply (ARG c x).
  - left. apply noid_head; [now apply not_first|discriminate].
  - left. apply noid_head; [now apply not_first|discriminate].
  - left. apply noid_head; [now apply not_first|discriminate].
  - left. apply noid_head; [now apply not_first|discriminate].
Qed.

(** ** Telling what is in the parentheses *)
Definition plook : M struct_type :=
  id <- skip_identifier ;;
  match id with
  | None => investigate
  | Some _ =>
      skip_ws ;;;
      c <- peek_char ;;
      match c with
      | None => investigate
      | Some c =>
          if c =? c_colon then ret Named
          else if c =? c_comma then
            skip_next_char ;;;
            skip_ws ;;;
            b <- check_char c_rp ;;
            ret (if b then NewtypeTuple else NonNewtypeTuple)
          else if c =? c_rp then ret NewtypeTuple
          else investigate
      end
  end.
Definition pbody (unit_mode : bool) : M struct_type :=
  skip_ws ;;;
  rp <- check_char c_rp ;;
  if unit_mode && rp then ret EmptyTuple else plook.
Definition ptype (unit_mode : bool) : M struct_type :=
  if unit_mode then b <- consume_char c_lp ;; if b then pbody unit_mode else ret SUnit else pbody unit_mode.
Lemma precise_eq u : check_struct_type_inner u true = ptype u.
Proof. reflexivity. Qed.
Lemma precise u T s (P : struct_type -> Prop) : inv T s ->
  wp (ptype u) (fun t _ => P t) (fun _ _ => False) s ->
  wp (check_struct_type u true) (fun t s' => P t /\ rest s' = rest s /\ adv T s s') (fun _ _ => False) s.
Proof.
  intros J H.
  assert (H' : wp (check_struct_type u true) (fun t _ => P t) (fun _ _ => False) s).
  { unfold check_struct_type. eapply wp_bind_ok; [reflexivity|]. apply wp_bind. rewrite precise_eq. eapply wp_conseq; [exact H| |auto].
    cbn beta. intros t s' PT. apply wp_bind, wp_modify. now apply wp_ret. }
  eapply wp_conseq; [apply (wp_and _ _ _ _ _ _ H' (check_struct_type_total u true T s J))| |cbn beta; intros e0 s' (F & _); exact F]. cbn beta.
  intros t s' (PT & A & C). split; [assumption|]. split; [|assumption]. unfold get_cursor in C. congruence.
Qed.
Lemma pbody_look u T s w t (P : struct_type -> Prop) : inv T s -> rest s = w ++ t -> layout w -> opens t ->
  (forall s', adv T s s' -> rest s' = t -> wp plook (fun ty _ => P ty) (fun _ _ => False) s') ->
  wp (pbody u) (fun ty _ => P ty) (fun _ _ => False) s.
Proof.
  intros J Hs L O H. unfold pbody. apply wp_bind. eapply wp_reads; [apply (reads_ws w L)|exact J|exact Hs|now apply ReprFacts.opens_solid|]. intros s1 R1 A1.
  assert (NR := opens_not_closer c_rp t ltac:(cbn; tauto) O).
  eapply wp_bind_ok with (a := false) (s' := s1). { unfold check_char. rewrite R1. destruct t as [|c t]; [reflexivity|]. cbn in NR. now rewrite NR. }
  rewrite andb_false_r. now apply H.
Qed.
(** with the opening parenthesis or without *)
Definition open_text (u : bool) (t : str) : str := if u then c_lp :: t else t.
Lemma ptype_look u T s w t (P : struct_type -> Prop) : inv T s -> rest s = open_text u (w ++ t) -> layout w -> opens t ->
  (forall s', adv T s s' -> rest s' = t -> wp plook (fun ty _ => P ty) (fun _ _ => False) s') ->
  wp (check_struct_type u true) (fun ty s' => P ty /\ rest s' = rest s /\ adv T s s') (fun _ _ => False) s.
Proof.
  intros J Hs L O H. apply precise; [exact J|]. unfold ptype. destruct u; cbn [open_text] in Hs.
  - change (c_lp :: w ++ t) with ([c_lp] ++ w ++ t) in Hs. apply wp_bind. eapply wp_reads; [apply (reads_consume_char c_lp)|exact J|exact Hs|exact Logic.I|].
    intros s1 R1 A1. cbv iota. apply pbody_look with T w t; [apply A1|exact R1|exact L|exact O|]. intros s2 A2. apply H. eapply adv_trans; eassumption.
  - now apply pbody_look with T w t.
Qed.
Lemma investigate_many T s : inv T s -> loops true 1 (rest s) -> wp investigate (fun t _ => t = NonNewtypeTuple) (fun _ _ => False) s.
Proof.
  intros J H. unfold investigate. eapply wp_bind_ok; [reflexivity|]. apply wp_bind.
  eapply wp_conseq; [apply (H T s); [exact J|reflexivity|lia]| |auto]. cbn beta. intros b s' ->. now apply wp_ret.
Qed.
Lemma ident_rp_end r : ident_end (c_rp :: r).
Proof. apply delim_ident_end. cbn. tauto. Qed.
Lemma plook_one t T s r : scans t -> ilead t -> inv T s -> rest s = t ++ c_rp :: r -> wp plook (fun ty _ => ty = NewtypeTuple) (fun _ _ => False) s.
Proof.
  intros SC IL J Hs.
  assert (L0 : forall q, loops false 1 (c_rp :: q)) by (intros q; apply (loops_close false 0); [cbn; tauto|now apply loops_0]).
  assert (LP : loops false 1 (t ++ c_rp :: r)) by (apply (loops_scan false 0 [] t); [constructor|exact SC|]; apply loops_close; [cbn; tauto|now apply loops_0]).
  unfold plook. apply wp_bind. destruct IL as [NI|[(ti & n & HI & [->|(t' & -> & AS)])|(wd & x & t' & IN & -> & TA)]].
  - apply wp_ok with (@None str) s; [now apply NI with (c_rp :: r)|]. apply investigate_single with T; [exact J|now rewrite Hs].
  - eapply wp_reads; [apply (reads_skip_identifier ti n HI)|exact J|exact Hs|apply ident_rp_end|]. intros s2 R2 A2. cbv iota.
    apply wp_bind. eapply wp_reads; [apply (reads_ws []); constructor|apply A2|exact R2|split; [reflexivity|discriminate]|]. intros s3 R3 A3.
    eapply wp_bind_ok; [unfold peek_char; rewrite R3; reflexivity|]. cbn [N.eqb Pos.eqb]. now apply wp_ret.
  - rewrite <- !app_assoc in Hs. cbn [app] in Hs. rewrite <- !app_assoc in Hs. eapply wp_reads; [apply (reads_skip_identifier ti n HI)|exact J|exact Hs|apply lp_ident_end with (w := []); constructor|]. intros s2 R2 A2. cbv iota.
    apply wp_bind. eapply wp_reads; [apply (reads_ws []); constructor|apply A2|exact R2|split; [reflexivity|discriminate]|]. intros s3 R3 A3.
    eapply wp_bind_ok; [unfold peek_char; rewrite R3; reflexivity|]. cbn [N.eqb Pos.eqb].
    apply investigate_single with T; [apply A3|]. rewrite R3. cbn [app]. apply parens_scan; [exact AS|apply L0].
  - rewrite <- !app_assoc in Hs. cbn [app] in Hs. eapply wp_reads; [exact (reads_skip_word wd x IN)|exact J|exact Hs|exists (t' ++ c_rp :: r); reflexivity|]. intros s2 R2 A2. cbv iota.
    apply wp_bind. eapply wp_reads with (txt := []); [apply (reads_ws [] l_nil)|apply A2|exact R2|split; [reflexivity|discriminate]|]. intros s3 R3 A3.
    eapply wp_bind_ok; [unfold peek_char; rewrite R3; reflexivity|]. cbn [N.eqb Pos.eqb].
    apply investigate_single with T; [apply A3|]. rewrite R3. apply (loops_inner false 0 []); [constructor|split; [reflexivity|discriminate]|].
    apply (inner_word false 0 (c_dot :: t') (c_rp :: r)); [exact TA|discriminate|reflexivity|apply L0].
Qed.
(** a comma that is not the last thing *)
Lemma beyond_more w r : layout w -> opens r -> beyond true 0 (c_comma :: w ++ r).
Proof.
  intros L O. assert (ST : steps true 0 (c_comma :: w ++ r)).
  { intros T s f J Hs LF. unfold braces_step. apply wp_bind.
    eapply wp_reads; [apply (reads_next_char c_comma)|exact J|exact Hs|exact Logic.I|]. intros s1 R1 A1. cbn [N.eqb Pos.eqb orb andb Nat.eqb].
    apply wp_bind. eapply wp_reads; [apply (reads_ws w L)|apply A1|exact R1|now apply ReprFacts.opens_solid|]. intros s2 R2 A2.
    assert (NR := opens_not_closer c_rp r ltac:(cbn; tauto) O).
    eapply wp_bind_ok with (a := false) (s' := s2). { unfold check_char. rewrite R2. destruct r as [|c r]; [reflexivity|]. cbn in NR. now rewrite NR. }
    now apply wp_ret. }
  assert (HA : after true 0 (c_comma :: w ++ r)) by (split; [now apply (tame_calm [])|exact ST]).
  split; [reflexivity|]. split; [exact HA|]. apply (loops_inner true 0 []); [constructor|split; [reflexivity|discriminate]|now apply inner_after].
Qed.
Lemma plook_many t T s w r : scans t -> ilead t -> layout w -> opens r -> inv T s -> rest s = t ++ c_comma :: w ++ r ->
  wp plook (fun ty _ => ty = NonNewtypeTuple) (fun _ _ => False) s.
Proof.
  intros SC IL L O J Hs. assert (BM := beyond_more w r L O).
  assert (LP : loops true 1 (t ++ c_comma :: w ++ r)) by (apply (loops_scan true 0 [] t); [constructor|exact SC|exact BM]).
  unfold plook. apply wp_bind. destruct IL as [NI|[(ti & n & HI & [->|(t' & -> & AS)])|(wd & x & t' & IN & -> & TA)]].
  - apply wp_ok with (@None str) s; [now apply NI with (c_comma :: w ++ r)|]. apply investigate_many with T; [exact J|now rewrite Hs].
  - eapply wp_reads; [apply (reads_skip_identifier ti n HI)|exact J|exact Hs|apply delim_ident_end; cbn; tauto|]. intros s2 R2 A2. cbv iota.
    apply wp_bind. eapply wp_reads; [apply (reads_ws []); constructor|apply A2|exact R2|split; [reflexivity|discriminate]|]. intros s3 R3 A3.
    eapply wp_bind_ok; [unfold peek_char; rewrite R3; reflexivity|]. cbn [N.eqb Pos.eqb].
    eapply wp_bind_ok; [unfold skip_next_char, try, next_char; rewrite R3; reflexivity|].
    assert (A4 : adv T s3 (set_rest (w ++ r) s3)) by (apply adv_set_rest; [apply A3|rewrite R3; apply suf_cons]).
    apply wp_bind. eapply wp_reads; [apply (reads_ws w L)|apply A4|reflexivity|now apply ReprFacts.opens_solid|]. intros s5 R5 A5.
    assert (NR := opens_not_closer c_rp r ltac:(cbn; tauto) O).
    eapply wp_bind_ok with (a := false) (s' := s5). { unfold check_char. rewrite R5. destruct r as [|c r]; [reflexivity|]. cbn in NR. now rewrite NR. }
    now apply wp_ret.
  - rewrite <- !app_assoc in Hs. cbn [app] in Hs. rewrite <- !app_assoc in Hs. eapply wp_reads; [apply (reads_skip_identifier ti n HI)|exact J|exact Hs|apply lp_ident_end with (w := []); constructor|]. intros s2 R2 A2. cbv iota.
    apply wp_bind. eapply wp_reads; [apply (reads_ws []); constructor|apply A2|exact R2|split; [reflexivity|discriminate]|]. intros s3 R3 A3.
    eapply wp_bind_ok; [unfold peek_char; rewrite R3; reflexivity|]. cbn [N.eqb Pos.eqb].
    apply investigate_many with T; [apply A3|]. rewrite R3. cbn [app]. apply parens_scan; [exact AS|]. apply BM.
  - rewrite <- !app_assoc in Hs. cbn [app] in Hs. eapply wp_reads; [exact (reads_skip_word wd x IN)|exact J|exact Hs|exists (t' ++ c_comma :: w ++ r); reflexivity|]. intros s2 R2 A2. cbv iota.
    apply wp_bind. eapply wp_reads with (txt := []); [apply (reads_ws [] l_nil)|apply A2|exact R2|split; [reflexivity|discriminate]|]. intros s3 R3 A3.
    eapply wp_bind_ok; [unfold peek_char; rewrite R3; reflexivity|]. cbn [N.eqb Pos.eqb].
    apply investigate_many with T; [apply A3|]. rewrite R3. apply (loops_inner true 0 []); [constructor|split; [reflexivity|discriminate]|].
    apply (inner_word true 0 (c_dot :: t') (c_comma :: w ++ r)); [exact TA|discriminate|reflexivity|apply BM].
Qed.
Lemma plook_named ti n T s r : ident_lit ti n -> inv T s -> rest s = ti ++ c_colon :: r -> wp plook (fun ty _ => ty = Named) (fun _ _ => False) s.
Proof.
  intros HI J Hs. unfold plook. apply wp_bind. eapply wp_reads; [apply (reads_skip_identifier ti n HI)|exact J|exact Hs|apply delim_ident_end; cbn; tauto|]. intros s2 R2 A2. cbv iota.
  apply wp_bind. eapply wp_reads; [apply (reads_ws []); constructor|apply A2|exact R2|split; [reflexivity|discriminate]|]. intros s3 R3 A3.
  eapply wp_bind_ok; [unfold peek_char; rewrite R3; reflexivity|]. cbn [N.eqb Pos.eqb]. now apply wp_ret.
Qed.
End WithEnv.
