(** Reading a Value where unwrap_variant_newtypes is on.

    Behind the parenthesis of a Some the deserializer looks ahead through the
    whole argument, to tell a single value from the bare fields of a tuple or a
    struct.  This file says which texts that look-ahead understands, shows that
    it does, and reads them. *)
From Coq Require Import String Ascii NArith ZArith Lia Bool List.
From Coq Require Import ZifyBool ZifyNat ZifyN.
From Verif Require Import Base Facts Value Data Parse De Wp EnvOk Layout Lit LexSafe LexWs LexRead DocSafe DocRead SerLex Typing Repr ReprFacts TypedRead VRepr AnyRead AnyMain.
Import ListNotations.
Open Scope N_scope.
Open Scope list_scope.
Open Scope m_scope.

(** ** The texts *)

(** elements with the comma right behind each; before the closing bracket there
    are only blanks *)
Section Neat.
Context {A : Type}.
Variable R : A -> str -> Prop.
Inductive neat : list A -> str -> Prop :=
  | ne_nil : neat [] []
  | ne_last a t w : R a t -> ws_str w -> neat [a] (t ++ w)
  | ne_cons a t w l ts : R a t -> layout w -> neat l ts -> neat (a :: l) (t ++ c_comma :: w ++ ts).
End Neat.
Inductive neat_entry {K V} (RK : K -> str -> Prop) (R : V -> str -> Prop) : K * V -> str -> Prop :=
  | ne_entry k tk v tv w : RK k tk -> layout w -> R v tv -> neat_entry RK R (k, v) (tk ++ c_colon :: w ++ tv).

Section WithEnv.
Context {E : Env} {X : XidOk E} {FO : FloatOk E}.

(** a unit below a Some may be left out *)
Inductive urepr : value -> str -> Prop :=
  | u_bool b : urepr (XBool b) (if b : bool then s_true else s_false)
  | u_num n t : num_text n t -> urepr (XNum n) t
  | u_char c t : char_lit t c -> urepr (XChar c) t
  | u_str s t : string_lit t s -> urepr (XStr s) t
  | u_bytes b t : bytes_lit t b -> urepr (XBytes b) t
  | u_unit : urepr XUnit s_unit
  | u_none : urepr XNone s_None
  | u_some_unit : urepr (XSome XUnit) (s_Some ++ s_unit)
  | u_some x t : urepr x t -> urepr (XSome x) (s_Some ++ c_lp :: t ++ [c_rp])
  | u_seq l t w : layout w -> neat urepr l t -> urepr (XSeq l) (c_lb :: w ++ t ++ [c_rb])
  | u_map es t w : layout w -> neat (neat_entry urepr urepr) es t -> urepr (XMap es) (c_lc :: w ++ t ++ [c_rc]).

(** ** The look-ahead *)

(** a literal that is not there *)
Definition misses {A} (stop : err -> bool) (m : M A) (r : str) : Prop := forall T s, inv T s -> rest s = r ->
  wp m (fun _ _ => False) (fun e s' => stop e = false /\ adv T s s') s.
Lemma wp_attempt_miss {A} stop (m : M A) T s (Q : unit -> st -> Prop) (R : err -> st -> Prop) : misses stop m (rest s) -> inv T s ->
  (forall s', rest s' = rest s -> adv T s s' -> Q tt s') -> wp (attempt stop m) Q R s.
Proof.
  intros H J HQ. unfold attempt. eapply wp_bind_ok; [reflexivity|]. apply wp_try.
  eapply wp_conseq; [apply (H T s J eq_refl)|contradiction|]. cbn beta. intros e s1 (-> & A1). apply wp_modify. apply HQ; [reflexivity|now apply adv_rewind].
Qed.
Lemma wp_attempt_hit {A} stop (m : M A) t a T s r (Q : unit -> st -> Prop) (R : err -> st -> Prop) : reads m t anything a -> inv T s -> rest s = t ++ r ->
  (forall s', rest s' = r -> adv T s s' -> Q tt s') -> wp (attempt stop m) Q R s.
Proof.
  intros H J Hs HQ. unfold attempt. eapply wp_bind_ok; [reflexivity|]. apply wp_try.
  eapply wp_reads; [exact H|exact J|exact Hs|exact Logic.I|]. intros s1 R1 A1. apply wp_ret. auto.
Qed.
Lemma misses_char r : starts_not (fun c => c =? c_sq) r -> misses (fun _ => false) parse_char r.
Proof.
  intros H T s J Hs. unfold parse_char, expect_char. apply wp_bind, wp_bind.
  eapply wp_reads; [apply (reads_consume_char_false c_sq)|exact J|exact Hs|exact H|]. intros s1 R1 A1. apply wp_fail. auto.
Qed.
Definition quote (c : char) : bool := (c =? c_dq) || (c =? c_hash).
Lemma raw_misses r T s : starts_not quote r -> inv T s -> rest s = r ->
  wp raw_byte_buf (fun _ _ => False) (fun e s' => e = EExpectedString /\ adv T s s') s.
Proof.
  intros H J Hs. unfold raw_byte_buf. eapply wp_bind_ok with (a := 0%nat) (s' := s).
  { unfold next_chars_while_len, next_chars_while_from_len, bind, src. rewrite Hs. destruct r as [|c r]; [reflexivity|].
    cbn in H. unfold quote in H. apply orb_false_elim in H as [_ H]. cbn [bdrop of_slice ret takewhile]. unfold ret. now rewrite H. } eapply wp_bind_ok; [reflexivity|]. eapply wp_bind_ok; [destruct (rest s); reflexivity|].
  apply wp_bind. eapply wp_reads with (txt := @nil char); [apply reads_advance; reflexivity|exact J|exact Hs|exact Logic.I|]. intros s1 R1 A1.
  unfold expect_char. apply wp_bind, wp_bind.
  eapply wp_reads; [apply (reads_consume_char_false c_dq)|apply A1|exact R1| |].
  { destruct r as [|c r]; [exact Logic.I|]. cbn in *. unfold quote in H. now apply orb_false_elim in H. }
  intros s2 R2 A2. apply wp_fail. split; [reflexivity|eapply adv_trans; eassumption].
Qed.
Definition no_string (r : str) : Prop := starts_not (fun c => c =? c_dq) r /\ forall r', r = c_r :: r' -> starts_not quote r'.
Lemma misses_string r : no_string r -> misses unterminated parse_string r.
Proof.
  intros [H1 H2] T s J Hs. unfold parse_string. apply wp_bind.
  eapply wp_reads; [apply (reads_consume_char_false c_dq)|exact J|exact Hs|exact H1|]. intros s1 R1 A1. apply wp_bind.
  destruct r as [|c r].
  - eapply wp_reads; [apply (reads_consume_char_false c_r)|apply A1|exact R1|exact Logic.I|]. intros s2 R2 A2. apply wp_fail. split; [reflexivity|eapply adv_trans; eassumption].
  - destruct (c =? c_r) eqn:C.
    + apply N.eqb_eq in C. subst c. eapply wp_reads; [apply (reads_consume_char c_r)|apply A1|exact R1|exact Logic.I|]. intros s2 R2 A2. unfold raw_string, finish_string.
      apply wp_bind. eapply wp_conseq; [apply (raw_misses r T s2); [now apply H2|apply A2|exact R2]|contradiction|]. cbn beta. intros e s3 (-> & A3).
      split; [reflexivity|]. eapply adv_trans; [exact A1|]. eapply adv_trans; eassumption.
    + eapply wp_reads; [apply (reads_consume_char_false c_r)|apply A1|exact R1|exact C|]. intros s2 R2 A2. apply wp_fail. split; [reflexivity|eapply adv_trans; eassumption].
Qed.
Definition no_bytes (r : str) : Prop := starts_with s_bdq r = false /\ forall r', r = c_b :: c_r :: r' -> starts_not quote r'.
Lemma misses_bytes r : no_bytes r -> misses unterminated byte_string_no_base64 r.
Proof.
  intros [H1 H2] T s J Hs. unfold byte_string_no_base64. apply wp_bind.
  eapply wp_reads; [apply (reads_consume_str_false s_bdq)|exact J|exact Hs|exact H1|]. intros s1 R1 A1. apply wp_bind.
  destruct (starts_with s_br r) eqn:B.
  - unfold starts_with in B. destruct (strip_prefix s_br r) as [r'|] eqn:P; [|discriminate]. apply strip_prefix_some in P.
    eapply wp_reads; [apply (reads_consume_str s_br)|apply A1|rewrite R1; exact P|exact Logic.I|]. intros s2 R2 A2. unfold raw_byte_string, finish_bytes.
    apply wp_map_err, wp_bind. eapply wp_conseq; [apply (raw_misses r' T s2); [now apply H2|apply A2|exact R2]|contradiction|]. cbn beta. intros e s3 (-> & A3).
    split; [reflexivity|]. eapply adv_trans; [exact A1|]. eapply adv_trans; eassumption.
  - eapply wp_reads; [apply (reads_consume_str_false s_br)|apply A1|exact R1|exact B|]. intros s2 R2 A2. apply wp_fail. split; [reflexivity|eapply adv_trans; eassumption].
Qed.
(** no literal begins here *)
Definition quiet (r : str) : Prop := starts_not (fun c => c =? c_sq) r /\ no_string r /\ no_bytes r.
Definition calm (r : str) : Prop :=
  misses (fun _ => false) parse_char r /\ misses unterminated parse_string r /\ misses unterminated byte_string_no_base64 r.
Lemma quiet_calm r : quiet r -> calm r.
Proof. intros (Q1 & Q2 & Q3). split; [now apply misses_char|]. split; [now apply misses_string|now apply misses_bytes]. Qed.

(** the rest of the loop after [d] open brackets: whether it finds more than
    one value *)
Section Res.
Variable res : bool.
Definition loops (d : nat) (r : str) : Prop := forall T s f, inv T s -> rest s = r -> (length r < f)%nat ->
  wp (braces_loop f d) (fun b _ => b = res) (fun _ _ => False) s.
Definition braces_step (f lower : nat) : M bool :=
  c <- next_char ;;
  if (c =? c_lp) || (c =? c_lb) || (c =? c_lc) then braces_loop f (S (S lower))
  else if (c =? c_rp) || (c =? c_rb) || (c =? c_rc) then braces_loop f lower
  else if (c =? c_comma) && Nat.eqb (S lower) 1 then
    skip_ws ;;; b <- check_char c_rp ;; ret (negb b)
  else braces_loop f (S lower).
Definition steps (lower : nat) (r : str) : Prop := forall T s f, inv T s -> rest s = r -> (length r <= f)%nat ->
  wp (braces_step f lower) (fun b _ => b = res) (fun _ _ => False) s.
Lemma loops_0 r : res = false -> loops 0 r.
Proof. intros -> T s f J Hs L. destruct f; now apply wp_ret. Qed.
Lemma steps_to d d' c r : loops d' r ->
  (d' = if (c =? c_lp) || (c =? c_lb) || (c =? c_lc) then S (S d) else if (c =? c_rp) || (c =? c_rb) || (c =? c_rc) then d else S d) ->
  (c = c_comma -> d <> 0%nat) -> steps d (c :: r).
Proof.
  intros H -> HC T s f J Hs L. unfold braces_step. apply wp_bind.
  eapply wp_reads; [apply (reads_next_char c)|exact J|exact Hs|exact Logic.I|]. intros s1 R1 A1. cbn [length] in L.
  destruct (_ || _); [apply (H T s1 f); [apply A1|exact R1|lia]|]. destruct (_ || _); [apply (H T s1 f); [apply A1|exact R1|lia]|].
  destruct (c =? c_comma) eqn:C; cbn [andb]; [|apply (H T s1 f); [apply A1|exact R1|lia]].
  apply N.eqb_eq in C. specialize (HC C). replace (Nat.eqb (S d) 1) with false by (symmetry; apply Nat.eqb_neq; lia).
  apply (H T s1 f); [apply A1|exact R1|lia].
Qed.
Definition inner (lower : nat) (r : str) : Prop := forall T s f, inv T s -> rest s = r -> (length r <= f)%nat ->
  wp (attempt (fun _ => false) parse_char ;;; attempt unterminated parse_string ;;; attempt unterminated byte_string_no_base64 ;;; braces_step f lower)
    (fun b _ => b = res) (fun _ _ => False) s.
Lemma loops_inner d w r : layout w -> solid r -> inner d r -> loops (S d) (w ++ r).
Proof.
  intros L SO H T s f J Hs LF. rewrite app_length in LF. destruct f as [|f]; [lia|]. cbn [braces_loop].
  apply wp_bind. eapply wp_conseq; [apply (wp_skip_ws T s w r J Hs L SO)| |auto]. cbn beta. intros [] s1 (R1 & A1).
  apply (H T s1 f); [apply A1|exact R1|lia].
Qed.
(** behind a value *)
Definition after (d : nat) (r : str) : Prop := calm r /\ steps d r.
Lemma inner_after d r : after d r -> inner d r.
Proof.
  intros [(C1 & C2 & C3) H] T s f J Hs L.
  apply wp_bind. apply wp_attempt_miss with T; [rewrite Hs; exact C1|exact J|]. intros s1 R1 A1.
  apply wp_bind. apply wp_attempt_miss with T; [rewrite R1, Hs; exact C2|apply A1|]. intros s2 R2 A2.
  apply wp_bind. apply wp_attempt_miss with T; [rewrite R2, R1, Hs; exact C3|apply A2|]. intros s3 R3 A3.
  apply (H T s3 f); [apply A3|congruence|exact L].
Qed.
Lemma inner_char d t x r : char_lit t x -> after d r -> inner d (t ++ r).
Proof.
  intros HL [(C1 & C2 & C3) H] T s f J Hs L. rewrite app_length in L.
  apply wp_bind. eapply wp_attempt_hit; [apply (reads_char t x HL)|exact J|exact Hs|]. intros s1 R1 A1.
  apply wp_bind. apply wp_attempt_miss with T; [rewrite R1; exact C2|apply A1|]. intros s2 R2 A2.
  apply wp_bind. apply wp_attempt_miss with T; [rewrite R2, R1; exact C3|apply A2|]. intros s3 R3 A3.
  apply (H T s3 f); [apply A3|congruence|lia].
Qed.
Lemma inner_string d t x r : string_lit t x -> after d r -> inner d (t ++ r).
Proof.
  intros HL [(C1 & C2 & C3) H] T s f J Hs L. rewrite app_length in L.
  apply wp_bind. apply wp_attempt_miss with T; [rewrite Hs; apply misses_char; now destruct HL|exact J|]. intros s1 R1 A1.
  apply wp_bind. eapply wp_attempt_hit; [apply (reads_string t x HL)|apply A1|rewrite R1; exact Hs|]. intros s2 R2 A2.
  apply wp_bind. apply wp_attempt_miss with T; [rewrite R2; exact C3|apply A2|]. intros s3 R3 A3.
  apply (H T s3 f); [apply A3|congruence|lia].
Qed.
Lemma inner_bytes d t x r : bytes_lit t x -> after d r -> inner d (t ++ r).
Proof.
  intros HL [(C1 & C2 & C3) H] T s f J Hs L. rewrite app_length in L.
  apply wp_bind. apply wp_attempt_miss with T; [rewrite Hs; apply misses_char; now destruct HL|exact J|]. intros s1 R1 A1.
  apply wp_bind. apply wp_attempt_miss with T; [rewrite R1, Hs; apply misses_string; destruct HL; split; try reflexivity; intros ? [=]|apply A1|]. intros s2 R2 A2.
  apply wp_bind. eapply wp_attempt_hit; [apply (reads_bytes_strict t x HL)|apply A2|rewrite R2, R1; exact Hs|]. intros s3 R3 A3.
  apply (H T s3 f); [apply A3|congruence|lia].
Qed.
(** characters of numbers and words *)
Definition tame (c : char) : bool := is_alpha c || is_digit c || (c =? 95) || (c =? c_dot) || (c =? c_eq) || (c =? c_plus) || (c =? c_minus) || ((128 <=? c) && negb (is_ws_char c)).
Definition ender (c : char) : bool := (c =? c_lp) || (c =? c_rp) || (c =? c_rb) || (c =? c_rc) || (c =? c_comma) || (c =? c_colon) || is_ws_char c.
Definition ends_word (r : str) : Prop := match r with [] => True | c :: _ => ender c = true end.
Lemma tame_calm w r : forallb tame w = true -> ends_word r -> calm (w ++ r).
Proof.
  intros W HR. apply quiet_calm.
  assert (Q1 : forall c, tame c = true -> (c =? c_sq) = false /\ (c =? c_dq) = false /\ quote c = false) by (intros c H; unfold tame, quote, is_alpha, is_digit in *; lia).
  assert (Q2 : forall c, ender c = true -> (c =? c_sq) = false /\ (c =? c_dq) = false /\ quote c = false /\ c <> c_r /\ c <> c_b).
  { intros c H. unfold ender, is_ws_char in *. unfold quote. lia. }
  assert (QR : ends_word r -> starts_not quote r) by (destruct r; [now intros|]; intros H; apply (Q2 _ H)).
  destruct w as [|a w].
  - cbn [app]. destruct r as [|c r]; [repeat split; try exact Logic.I; intros ? [=]|]. destruct (Q2 c HR) as (A1 & A2 & A3 & A4 & A5).
    split; [exact A1|]. split; split; [exact A2|intros ? [=]; congruence| |intros ? [=]; congruence].
    unfold starts_with. change s_bdq with [c_b; c_dq]. cbn [strip_prefix]. destruct (c_b =? c) eqn:C; [apply N.eqb_eq in C; congruence|reflexivity].
  - cbn [forallb] in W. apply andb_prop in W as [Wa W]. destruct (Q1 a Wa) as (A1 & A2 & A3). cbn [app].
    assert (H1 : starts_not quote (w ++ r)).
    { destruct w as [|b w]; [now apply QR|]. cbn [forallb] in W. apply andb_prop in W as [Wb W]. apply (Q1 b Wb). }
    split; [exact A1|]. split; split; [exact A2|intros r' [= -> <-]; exact H1| |].
    + unfold starts_with. change s_bdq with [c_b; c_dq]. cbn [strip_prefix]. destruct (c_b =? a); [|reflexivity].
      destruct (w ++ r) as [|b q]; [reflexivity|]. cbn in H1. unfold quote in H1. apply orb_false_elim in H1 as [H1 _]. rewrite N.eqb_sym, H1. reflexivity.
    + intros r' [= -> EQ]. destruct w as [|b w]; [cbn [app] in EQ; subst r; now destruct (Q2 _ HR) as (_ & _ & _ & A4 & _)|].
      cbn [app] in EQ. injection EQ as -> <-. cbn [forallb] in W. apply andb_prop in W as [Wb W].
      destruct w as [|b w]; [now apply QR|]. cbn [forallb] in W. apply andb_prop in W as [Wc W]. apply (Q1 b Wc).
Qed.
Lemma tame_solid c r : tame c = true -> solid (c :: r).
Proof. intros H. unfold solid, tame, is_ws_char, is_alpha, is_digit in *. split; lia. Qed.
Lemma inner_word d w r : forallb tame w = true -> w <> [] -> ends_word r -> loops (S d) r -> inner d (w ++ r).
Proof.
  intros W NE HR HL. induction w as [|c w IH]; [congruence|]. assert (W0 := W). cbn [forallb] in W. apply andb_prop in W as [Wc W].
  apply inner_after. split; [now apply tame_calm|]. cbn [app]. apply steps_to with (d' := S d).
  - destruct w as [|b w]; [exact HL|]. apply (loops_inner d []); [constructor| |apply IH; [exact W|discriminate]].
    cbn [forallb] in W. apply andb_prop in W as [Wb _]. now apply tame_solid.
  - unfold tame, is_alpha, is_digit in Wc. repeat match goal with |- context [if ?b then _ else _] => destruct b eqn:?; [lia|] end. reflexivity.
  - intros ->. discriminate.
Qed.

(** what follows a value in the texts above *)
Definition beyond (d : nat) (r : str) : Prop := ends_word r /\ after d r /\ loops (S d) r.
Lemma beyond_cons d d' c r : In c [c_rp; c_rb; c_rc; c_comma; c_colon] -> loops d' r ->
  (d' = if (c =? c_rp) || (c =? c_rb) || (c =? c_rc) then d else S d) -> (c = c_comma -> d <> 0%nat) -> beyond d (c :: r).
Proof.
  intros IN HL HD HC.
  assert (EW : ends_word (c :: r)) by (cbn in *; unfold ender; lia).
  assert (SO : solid (c :: r)) by (cbn in *; unfold is_ws_char; lia).
  assert (HS : steps d (c :: r)).
  { apply steps_to with d'; [exact HL| |exact HC]. rewrite HD. clear - IN. cbn in IN. destruct IN as [<-|[<-|[<-|[<-|[<-|[]]]]]]; reflexivity. }
  assert (HA : after d (c :: r)) by (split; [now apply (tame_calm [])|exact HS]).
  split; [exact EW|]. split; [exact HA|]. apply (loops_inner d []); [constructor|exact SO|now apply inner_after].
Qed.
Lemma beyond_blanks d w r : ws_str w -> solid r -> beyond d r -> beyond d (w ++ r).
Proof.
  intros W SO HB. unfold ws_str in W. induction w as [|c w IH]; [exact HB|]. cbn [forallb] in W. apply andb_prop in W as [Wc W]. specialize (IH W).
  assert (EW : ends_word ((c :: w) ++ r)) by (cbn; unfold ender; rewrite Wc; now rewrite orb_true_r).
  split; [exact EW|]. split.
  - split; [now apply (tame_calm [])|]. cbn [app]. apply steps_to with (S d).
    + apply IH.
    + unfold is_ws_char in Wc.  repeat match goal with |- context [if ?b then _ else _] => destruct b eqn:?; [lia|] end. reflexivity.
    + intros ->. discriminate.
  - apply loops_inner; [|exact SO|now apply inner_after, HB]. apply ws_str_layout. unfold ws_str. cbn [forallb]. now rewrite Wc.
Qed.
Lemma inner_open d c r : In c [c_lp; c_lb; c_lc] -> loops (S (S d)) r -> inner d (c :: r).
Proof.
  intros IN HL. apply inner_after. split.
  - apply quiet_calm. cbn in IN. split; [cbn; lia|]. split; split; try (cbn; lia); try (intros ? [=]; lia).
    unfold starts_with. change s_bdq with [c_b; c_dq]. cbn [strip_prefix]. destruct (c_b =? c) eqn:C; [lia|reflexivity].
  - apply steps_to with (S (S d)); [exact HL| |intros ->; cbn in IN; lia]. cbn in IN. destruct (_ || _) eqn:Q; [reflexivity|lia].
Qed.
End Res.
Lemma urepr_opens x t r : urepr x t -> opens (t ++ r).
Proof.
  intros H. destruct H as [b|n t H|c t H|s t H|b t H| | | |x t _|l t w _ _|es t w _ _];
    [destruct b|eapply num_opens; eassumption|destruct H|destruct H|destruct H|..]; split; reflexivity || (cbn; intuition discriminate).
Qed.
(** numbers *)
Lemma tame_sign sg neg : sign sg neg -> forallb tame sg = true.
Proof. now destruct 1. Qed.
Lemma tame_digits ds : forallb is_digit ds = true -> forallb tame ds = true.
Proof. intros H. rewrite forallb_forall in *. intros c IN. specialize (H c IN). unfold tame. rewrite H. now rewrite orb_true_r. Qed.
Lemma tame_int base ds z : int_number base ds z -> forallb tame ds = true.
Proof.
  assert (HX : forall c d, hex_digit c d -> tame c = true) by (intros c d []; unfold tame, is_alpha, is_digit; lia).
  induction 1 as [c d HD _|s z c d _ IH HD _|s z _ IH]; [cbn; now rewrite (HX c d)|rewrite forallb_app, IH; cbn; now rewrite (HX c d)|rewrite forallb_app, IH; reflexivity].
Qed.
Lemma tame_pointed t : pointed t -> forallb tame t = true.
Proof.
  intros [sg neg ds fs ex S1 _ D1 _ D2 EX]. rewrite !forallb_app. cbn [forallb]. rewrite forallb_app, (tame_sign sg neg), (tame_digits ds), (tame_digits fs) by assumption.
  destruct EX as [|e sg' neg' ds' HE S2 _ D3]; [reflexivity|]. cbn [forallb]. rewrite forallb_app, (tame_sign sg' neg'), (tame_digits ds') by assumption.
  destruct HE as [->| ->]; reflexivity.
Qed.
Lemma tame_lit t z : int_lit t z -> forallb tame t = true.
Proof.
  intros [s neg p base ds z' S1 P1 N1]. rewrite !forallb_app, (tame_sign s neg), (tame_int base ds z') by assumption. now destruct P1.
Qed.
Lemma num_tame n t : num_text n t -> forallb tame t = true.
Proof.
  intros [sg neg p base ds z k H1 H2 H3 _|k t' z _ H _|t' b H _|k t' b H _| | | | |k t' f H]; try reflexivity.
  - apply (tame_lit _ (signed_value neg z)). eapply il; eassumption.
  - rewrite forallb_app, (tame_lit t' z H). now destruct k.
  - now apply tame_pointed.
  - rewrite forallb_app, tame_pointed by assumption. now destruct k.
  - rewrite forallb_app. destruct H, k; reflexivity.
Qed.
Definition neat_mono {A} (R R' : A -> str -> Prop) (H : forall a t, R a t -> R' a t) : forall l t, neat R l t -> neat R' l t :=
  fix go l t h := match h in neat _ l t return neat R' l t with
    | ne_nil _ => ne_nil R'
    | ne_last _ a t w h W => ne_last R' a t w (H a t h) W
    | ne_cons _ a t w l ts h L hl => ne_cons R' a t w l ts (H a t h) L (go l ts hl)
    end.
Definition neat_entry_mono {K V} (RK RK' : K -> str -> Prop) (R R' : V -> str -> Prop) (HK : forall a t, RK a t -> RK' a t) (H : forall a t, R a t -> R' a t) :
  forall e t, neat_entry RK R e t -> neat_entry RK' R' e t :=
  fun e t h => match h in neat_entry _ _ e t return neat_entry RK' R' e t with
    | ne_entry _ _ k tk v tv w hk L hv => ne_entry RK' R' k tk v tv w (HK k tk hk) L (H v tv hv)
    end.
Definition scans (t : str) : Prop := (forall r, opens (t ++ r)) /\ forall res d r, beyond res d r -> inner res d (t ++ r).
Lemma loops_scan res d w t r : layout w -> scans t -> beyond res d r -> loops res (S d) (w ++ t ++ r).
Proof. intros L [O H] B. apply loops_inner; [exact L|apply ReprFacts.opens_solid, O|now apply H]. Qed.
Lemma neat_scans {A} (R : A -> str -> Prop) res d l t : neat R l t -> (forall a ta, R a ta -> scans ta) ->
  forall w r, layout w -> solid r -> beyond res (S d) r -> loops res (S (S d)) (w ++ t ++ r).
Proof.
  intros H HR. induction H as [|a t w0 HA W0|a t w0 l ts HA L0 HN IH]; intros w r L SO B.
  - cbn [app]. apply loops_inner; [exact L|exact SO|apply inner_after, B].
  - rewrite <- app_assoc. apply loops_scan; [exact L|now apply (HR a)|now apply beyond_blanks].
  - rewrite <- app_assoc. apply loops_scan; [exact L|now apply (HR a)|]. cbn [app]. apply beyond_cons with (S (S d)); [cbn; tauto| |reflexivity|discriminate].
    rewrite <- app_assoc. now apply IH.
Qed.
Lemma entry_scans {K V} (kv : K * V) t : neat_entry (fun _ t => scans t) (fun _ t => scans t) kv t -> scans t.
Proof.
  intros [k' tk v tv w [OK HK] L HV]. split; [intros r; rewrite <- app_assoc; apply OK|].
  intros res d r B. rewrite <- app_assoc. apply HK. cbn [app]. apply beyond_cons with (S d); [cbn; tauto| |reflexivity|discriminate].
  rewrite <- app_assoc. now apply loops_scan.
Qed.
Lemma loops_close res d c r : In c [c_rp; c_rb; c_rc] -> loops res d r -> beyond res d (c :: r).
Proof.
  intros IN HL. apply beyond_cons with d; [cbn in *; tauto|exact HL| |].
  - cbn in IN. destruct IN as [<-|[<-|[<-|[]]]]; reflexivity.
  - intros ->. cbn in IN. lia.
Qed.
Fixpoint urepr_scans x t (H : urepr x t) {struct H} : scans t.
Proof.
  assert (O := fun r => urepr_opens x t r H). split; [exact O|]. intros res d r B.
  destruct H as [b|n t H|c t H|s t H|b t H| | | |x t H|l t w L H|es t w L H].
  - apply inner_word; [now destruct b|now destruct b|apply B|apply B].
  - apply inner_word; [eapply num_tame; eassumption| |apply B|apply B]. intros ->. exact (O []).
  - eapply inner_char; [exact H|apply B].
  - eapply inner_string; [exact H|apply B].
  - eapply inner_bytes; [exact H|apply B].
  - change (s_unit ++ r) with (c_lp :: c_rp :: r). apply inner_open; [cbn; tauto|]. apply (loops_close res (S d) c_rp r); [cbn; tauto|apply B].
  - apply inner_word; [reflexivity|discriminate|apply B|apply B].
  - rewrite <- app_assoc. apply inner_word; [reflexivity|discriminate|reflexivity|]. change (s_unit ++ r) with (c_lp :: c_rp :: r).
    apply (loops_inner res d []); [constructor|split; [reflexivity|discriminate]|]. apply inner_open; [cbn; tauto|]. apply (loops_close res (S d) c_rp r); [cbn; tauto|apply B].
  - rewrite <- app_assoc. apply inner_word; [reflexivity|discriminate|reflexivity|]. cbn [app].
    apply (loops_inner res d []); [constructor|split; [reflexivity|discriminate]|]. apply inner_open; [cbn; tauto|]. rewrite <- app_assoc.
    apply (loops_scan res (S d) [] t); [constructor|exact (urepr_scans x t H)|]. apply loops_close; [cbn; tauto|apply B].
  - cbn [app]. apply inner_open; [cbn; tauto|]. rewrite <- !app_assoc.
    apply (neat_scans (fun _ t => scans t) res d l t); [exact (neat_mono _ _ (fun x t h => urepr_scans x t h) l t H)|auto|exact L|split; [reflexivity|discriminate]|].
    apply loops_close; [cbn; tauto|apply B].
  - cbn [app]. apply inner_open; [cbn; tauto|]. rewrite <- !app_assoc.
    apply (neat_scans (neat_entry (fun _ t => scans t) (fun _ t => scans t)) res d es t); [exact (neat_mono _ _ (neat_entry_mono _ _ _ _ (fun x t h => urepr_scans x t h) (fun x t h => urepr_scans x t h)) es t H)|intros a ta; now apply entry_scans|exact L|split; [reflexivity|discriminate]|].
    apply loops_close; [cbn; tauto|apply B].
Qed.

(** ** Telling a single value *)
Lemma check_type_precise T s (P : struct_type -> Prop) : inv T s ->
  wp (check_struct_type_inner false true) (fun t _ => P t) (fun _ _ => False) s ->
  wp (check_struct_type false true) (fun t s' => P t /\ rest s' = rest s /\ adv T s s') (fun _ _ => False) s.
Proof.
  intros J H.
  assert (H' : wp (check_struct_type false true) (fun t _ => P t) (fun _ _ => False) s).
  { unfold check_struct_type. eapply wp_bind_ok; [reflexivity|]. apply wp_bind. eapply wp_conseq; [exact H| |auto].
    cbn beta. intros t s' PT. apply wp_bind, wp_modify. now apply wp_ret. }
  eapply wp_conseq; [apply (wp_and _ _ _ _ _ _ H' (check_struct_type_total false true T s J))| |cbn beta; intros e0 s' (F & _); exact F]. cbn beta.
  intros t s' (PT & A & C). split; [assumption|]. split; [|assumption]. unfold get_cursor in C. congruence.
Qed.
Definition investigate : M struct_type :=
  r <- src ;; more <- braces_loop (S (length r)) 1 ;; ret (if more then NonNewtypeTuple else NewtypeTuple).
Lemma investigate_single T s : inv T s -> loops false 1 (rest s) -> wp investigate (fun t _ => t = NewtypeTuple) (fun _ _ => False) s.
Proof.
  intros J H. unfold investigate. eapply wp_bind_ok; [reflexivity|]. apply wp_bind.
  eapply wp_conseq; [apply (H T s); [exact J|reflexivity|lia]| |auto]. cbn beta. intros b s' ->. now apply wp_ret.
Qed.
(** a value is no identifier, or a word, or a Some *)
Lemma urepr_lead x t : urepr x t -> noid t \/ In t keywords \/ exists t', t = s_Some ++ c_lp :: t' /\ forall r, loops false 1 (c_lp :: t' ++ c_rp :: r).
Proof.
  intros H. destruct H as [b|n t H|c t H|s t H|b t H| | | |x t H|l t w L H|es t w L H].
  - right. left. destruct b; cbn; tauto.
  - destruct (num_text_head n t H) as [(c & t' & -> & HC)|IN].
    + left. apply noid_head; [apply not_first; unfold is_alpha, is_digit in *; lia|unfold is_digit in HC; lia].
    + right. left. cbn in IN. repeat (destruct IN as [IN|IN]; [injection IN as <- _; cbn; tauto|]). contradiction.
  - left. eapply noid_char; eassumption.
  - left. eapply noid_str; eassumption.
  - left. eapply noid_bytes; eassumption.
  - left. apply noid_head; [now apply not_first|discriminate].
  - right. left. cbn. tauto.
  - right. right. exists [c_rp]. split; [reflexivity|]. intros r. cbn [app].
    apply (loops_inner false 0 []); [constructor|split; [reflexivity|discriminate]|]. apply inner_open; [cbn; tauto|]. apply (loops_close false 1 c_rp); [cbn; tauto|]. apply (loops_close false 0 c_rp); [cbn; tauto|now apply loops_0].
  - right. right. exists (t ++ [c_rp]). split; [reflexivity|]. intros r. rewrite <- app_assoc. cbn [app].
    apply (loops_inner false 0 []); [constructor|split; [reflexivity|discriminate]|]. apply inner_open; [cbn; tauto|].
    apply (loops_scan false 1 [] t); [constructor|now apply urepr_scans with x|]. apply (loops_close false 1 c_rp); [cbn; tauto|]. apply (loops_close false 0 c_rp); [cbn; tauto|now apply loops_0].
  - left. apply noid_head; [now apply not_first|discriminate].
  - left. apply noid_head; [now apply not_first|discriminate].
Qed.
Lemma look_single x t T s r : urepr x t -> inv T s -> rest s = t ++ c_rp :: r ->
  wp (check_struct_type false true) (fun ty s' => ty = NewtypeTuple /\ rest s' = rest s /\ adv T s s') (fun _ _ => False) s.
Proof.
  intros H J Hs. apply check_type_precise; [exact J|]. unfold check_struct_type_inner. cbn [negb]. cbv zeta. fold investigate.
  assert (SC := urepr_scans x t H). assert (O := urepr_opens x t (c_rp :: r) H).
  assert (LP : loops false 1 (t ++ c_rp :: r)) by (apply (loops_scan false 0 [] t); [constructor|exact SC|]; apply loops_close; [cbn; tauto|now apply loops_0]).
  apply wp_bind. eapply wp_reads; [apply (reads_ws []); constructor|exact J|exact Hs|now apply ReprFacts.opens_solid|]. intros s1 R1 A1.
  eapply wp_bind_ok; [reflexivity|]. cbn [andb]. apply wp_bind.
  destruct (urepr_lead x t H) as [NI|[KW|(t' & -> & LT)]].
  - apply wp_ok with (@None str) s1; [now apply NI with (c_rp :: r)|]. apply investigate_single with T; [apply A1|now rewrite R1].
  - eapply wp_reads; [apply (reads_skip_identifier t t); now apply word_ident|apply A1|exact R1|apply delim_ident_end; cbn; tauto|]. intros s2 R2 A2.
    apply wp_bind. eapply wp_reads; [apply (reads_ws []); constructor|apply A2|exact R2|split; [reflexivity|discriminate]|]. intros s3 R3 A3.
    eapply wp_bind_ok; [unfold peek_char; rewrite R3; reflexivity|]. cbn [N.eqb Pos.eqb]. now apply wp_ret.
  - rewrite <- app_assoc in R1. eapply wp_reads; [apply (reads_skip_identifier s_Some s_Some); apply word_ident; cbn; tauto|apply A1|exact R1|apply lp_ident_end with (w := []); constructor|]. intros s2 R2 A2.
    apply wp_bind. eapply wp_reads; [apply (reads_ws []); constructor|apply A2|exact R2|split; [reflexivity|discriminate]|]. intros s3 R3 A3.
    eapply wp_bind_ok; [unfold peek_char; rewrite R3; reflexivity|]. cbn [N.eqb Pos.eqb].
    apply investigate_single with T; [apply A3|]. rewrite R3. apply LT.
Qed.

(** ** Reading *)
Section Exts.
Variable e : exts.
Hypothesis UV : x_unwrap_variant_newtypes e = true.

Lemma tr_unwrapped x t f c : urepr x t -> tr e (any_main (de_any f)) false false c t delim x ->
  tr e (de_any (S f)) true false c t (begins c_rp) x.
Proof.
  intros H G T s r J Hs (r' & ->) He Hn Hl. cbn [de_any]. apply wp_bind, wp_get. rewrite Hn. cbv iota.
  assert (O : opens (rest s)) by (rewrite Hs; now apply urepr_opens with x). assert (NR := opens_not_closer c_rp _ ltac:(cbn; tauto) O).
  assert (CC : check_char c_rp s = Ok false s).
  { clear - NR. unfold check_char. destruct (rest s) as [|c0 q]; [reflexivity|]. cbn in NR. now rewrite NR. }
  eapply wp_bind_ok; [exact CC|]. cbv iota.
  apply wp_bind. eapply wp_conseq; [apply (look_single x t T s r' H J Hs)| |auto]. cbn beta. intros ty s1 (-> & R1 & A1). cbv iota.
  destruct (adv_keeps T s s1 A1) as (Q1 & Q2 & Q3).
  apply wp_bind, wp_modify. eapply wp_conseq; [apply (G T (set_nt false s1) (c_rp :: r')); [apply A1|cbn [rest set_nt]; rewrite R1; exact Hs|cbn; tauto|cbn; congruence|reflexivity|cbn; now rewrite Q3]| |auto].
  cbn beta. intros a s2 (-> & R2 & J2 & E2 & N2 & L2). repeat split; auto; [apply J2..|]. cbn in L2. congruence.
Qed.
Lemma tr_unwrapped_unit f c : tr e (de_any (S f)) true false c [] (begins c_rp) XUnit.
Proof.
  intros T s r J Hs (r' & ->) He Hn Hl. cbn [de_any]. apply wp_bind, wp_get. rewrite Hn. cbv iota.
  eapply wp_bind_ok; [unfold check_char; rewrite Hs; reflexivity|]. cbn [app N.eqb Pos.eqb].
  unfold de_unit. apply wp_bind, wp_bind, wp_get. rewrite Hn. cbv iota. apply wp_bind, wp_ret. apply wp_modify, wp_ret. repeat split; auto; apply J.
Qed.
Lemma tr_any_some_unwrapped any c t x : tr e any true false c t (begins c_rp) x ->
  (forall r, solid (t ++ c_rp :: r)) ->
  tr e (any_main any) false false (S c) (s_Some ++ c_lp :: t ++ [c_rp]) anything (XSome x).
Proof.
  intros G SO.
  assert (LX : forall r, starts_not xid_continue (c_lp :: r)) by (intros r; apply ident_end_xid, (lp_ident_end []); constructor).
  eapply tr_eq; [intros s r _ Hs; eapply any_main_Some; [rewrite Hs; rewrite <- app_assoc; reflexivity|]|].
  { cbn [app]. apply LX. }
  unfold de_option.
  eapply tr_bind_r with (D1 := fun r => ident_at s_None r = false); [apply tr_lex, reads_consume_ident_false| |reflexivity].
  cbv iota. refine (tr_bind e _ _ false false false (S c) s_Some _ (starts_not xid_continue) anything true _ _ _ _); [apply tr_lex, reads_consume_ident| |].
  2: { intros r _. cbn [app]. apply LX. }
  cbv iota. eapply tr_text with (t := [c_lp] ++ t ++ [c_rp]); [|reflexivity].
  refine (tr_bind e _ _ false false false (S c) [c_lp] _ anything anything true _ _ _ _); [| |now intros].
  { refine (tr_bind e _ _ false false false (S c) [] [c_lp] solid anything tt _ _ _ _); [apply tr_ws; constructor|apply tr_char|intros r _; apply solid_char; reflexivity || discriminate]. }
  cbv iota. refine (tr_bind e _ _ false false false (S c) [] _ solid anything tt _ _ _ _); [apply tr_ws; constructor| |].
  2: { intros r _. rewrite <- !app_assoc. apply SO. }
  eapply tr_bind_r with (D1 := anything); [apply tr_nt_ext| |now intros]. rewrite UV.
  refine (tr_bind e _ _ true false false (S c) t [c_rp] (begins c_rp) anything (XSome x) _ _ _ _); [apply tr_guard, tr_map with (f := XSome), G| |intros r _; now exists r].
  eapply tr_bind_r with (D1 := anything); [apply tr_nt| |now intros].
  refine (tr_bind e _ _ false false false (S c) [] [c_rp] (begins c_rp) anything false _ _ _ _); [apply tr_no_comma; [cbn; tauto|constructor]| |intros r _; now exists r].
  eapply tr_bind_l with (D1 := anything); [apply tr_char|apply tr_ret|now intros].
Qed.
Lemma neat_items {A} (R : A -> str -> Prop) l t : neat R l t -> items R l t.
Proof.
  induction 1 as [|a t w HA W|a t w l ts HA L H IH]; [constructor|apply it_last; [exact HA|now apply ws_str_layout]|].
  apply (it_cons R a t [] w l ts); auto. constructor.
Qed.
Definition readable (x : value) (t : str) : Prop := forall f c, (length t <= f)%nat -> (vneed x <= c)%nat -> tr e (any_main (de_any f)) false false c t delim x.
Lemma readable_good f c x t : urepr x t -> readable x t -> (length t <= f)%nat -> (vneed x <= c)%nat -> good e (de_any (S f)) c t x.
Proof. intros H R LF LC. apply good_any; [intros r; now apply urepr_opens with x|]. apply trw_tr. now apply R. Qed.
Lemma readable_items f c l t : items (fun x t => urepr x t /\ readable x t) l t -> (length t < f)%nat -> (max_list (map vneed l) <= c)%nat ->
  items (fun x t => good e (de_any f) c t x) l t.
Proof.
  intros HI LF LC. destruct f as [|f]; [lia|]. eapply items_within with (N := f); [exact HI|lia|].
  intros x tx IN [V RD] LX. apply readable_good; auto. assert (M := max_list_in (vneed x) (map vneed l) (in_map vneed l x IN)). lia.
Qed.
Lemma readable_entries f c es t : items (neat_entry (fun x t => urepr x t /\ readable x t) (fun x t => urepr x t /\ readable x t)) es t -> (length t < f)%nat ->
  (max_list (map (fun kv => Nat.max (vneed (fst kv)) (vneed (snd kv))) es) <= c)%nat -> items (good_entry e (de_any f) (de_any f) c) es t.
Proof.
  intros HI LF LC. destruct f as [|f]; [lia|]. eapply items_within with (N := f); [exact HI|lia|].
  intros [k v] tx IN H LX.
  assert (M := max_list_in _ _ (in_map (fun kv => Nat.max (vneed (fst kv)) (vneed (snd kv))) es (k, v) IN)). cbn [fst snd] in M.
  inversion H as [k' tk v' tv w [UK RK] L [U RV]]; subst k' v' tx. repeat (rewrite app_length in LX; cbn [length] in LX).
  assert (GK : good e (de_any (S f)) c tk k) by (apply readable_good; [exact UK|exact RK|unfold str, char in *; lia|lia]).
  assert (GV : good e (de_any (S f)) c tv v) by (apply readable_good; [exact U|exact RV|unfold str, char in *; lia|lia]).
  exact (en _ _ k tk v tv [] w GK l_nil L GV).
Qed.
Fixpoint urepr_reads x t (H : urepr x t) {struct H} : readable x t.
Proof.
  assert (O := fun r => urepr_opens x t r H).
  destruct H as [b|n t H|x t H|s t H|b t H| | | |x t H|l t w L H|es t w L H]; intros f c LF LC.
  - apply tr_any_bool.
  - now apply tr_any_number.
  - eapply tr_D; [now apply tr_any_char|now intros].
  - eapply tr_D; [now apply tr_any_string|now intros].
  - eapply tr_D; [now apply tr_any_bytes|now intros].
  - eapply tr_D; [apply tr_any_unit|now intros].
  - apply tr_any_None.
  - eapply tr_D with (D := anything); [|now intros]. cbn [vneed] in LC. destruct c as [|c]; [lia|]. destruct f as [|f]; [cbn in LF; lia|].
    apply (tr_any_some_unwrapped (de_any (S f)) c [] XUnit); [apply tr_unwrapped_unit|intros r; apply solid_char; reflexivity || discriminate].
  - eapply tr_D with (D := anything); [|now intros]. cbn [vneed] in LC. destruct c as [|c]; [lia|].
    repeat (rewrite app_length in LF; cbn [length] in LF). destruct f as [|f]; [unfold str, char in *; cbn in LF; lia|].
    apply tr_any_some_unwrapped; [|intros r; apply ReprFacts.opens_solid, urepr_opens with x; assumption].
    apply tr_unwrapped; [exact H|]. apply (urepr_reads x t H); unfold str, char in *; lia.
  - eapply tr_D with (D := anything); [|now intros]. cbn [vneed] in LC. destruct c as [|[|c]]; [lia..|].
    apply tr_any_seq; [assumption|]. repeat first [rewrite app_length in LF|progress cbn [length] in LF].
    apply readable_items; [|unfold str, char in *; lia|lia].
    apply neat_items. exact (neat_mono _ _ (fun a t h => conj h (urepr_reads a t h)) l t H).
  - eapply tr_D with (D := anything); [|now intros]. cbn [vneed] in LC. destruct c as [|[|c]]; [lia..|].
    apply tr_any_map; [assumption|]. repeat first [rewrite app_length in LF|progress cbn [length] in LF].
    apply readable_entries; [|unfold str, char in *; lia|lia].
    apply neat_items. exact (neat_mono _ _ (neat_entry_mono _ _ _ _ (fun a t h => conj h (urepr_reads a t h)) (fun a t h => conj h (urepr_reads a t h))) es t H).
Qed.
End Exts.
End WithEnv.
