(** Literals as whole documents. *)
From Coq Require Import String Ascii NArith ZArith Lia Bool List.
From Coq Require Import ZifyBool ZifyNat ZifyN.
From Verif Require Import Base Facts Value Data Parse De Span Ser Wp EnvOk LexSafe DeSafe Layout Lit Attr ShowFacts LexWs LexRead DocSafe DocRead SerLex.
Import ListNotations.
Open Scope N_scope.
Open Scope list_scope.
Open Scope m_scope.

Section WithEnv.
Context {E : Env} {X : XidOk E}.

(** a reader that fails makes the document fail *)
Lemma document_fails {A} o (m : M A) w0 at0 e body (P : err -> Prop) :
  layout w0 -> attrs_text at0 e -> value_start body ->
  (forall T s, inv T s -> rest s = body -> ext s = exts_or e (o_exts o) -> nt s = false ->
     lim s = o_limit o -> last_id s = None ->
     wp m (fun _ _ => False) (fun e' s' => P e' /\ inv T s') s) ->
  exists e' sp, options_from_str o m (w0 ++ at0 ++ body) = RError e' sp /\ P e'.
Proof.
  intros L HA V HM. set (text := w0 ++ _).
  assert (W : wp (document o m) (fun _ _ => False) (fun e' s' => P e' /\ inv text s') (init_state text)).
  { unfold document. apply wp_bind. eapply wp_conseq; [apply (wp_parser_new w0 at0 e body text); auto using init_inv| |contradiction].
    cbn beta. intros [] s1 (I1 & E1 & X1 & N1 & L1 & D1). apply wp_bind, wp_modify.
    apply wp_bind. eapply wp_conseq; [apply (HM text)|contradiction|auto].
    - exact I1.
    - exact E1.
    - cbn. rewrite X1. cbn. now rewrite exts_empty_or.
    - exact N1.
    - reflexivity.
    - exact D1. }
  unfold options_from_str, from_str, spanned. Transparent wp. unfold wp in W. Opaque wp.
  destruct (document o m (init_state text)) as [a s|e' s| |]; try contradiction.
  destruct W as [HP I]. destruct (span_of_inv _ _ I) as (x & y & _ & _ & _ & _ & ->). exists e'. eexists. split; [reflexivity|assumption].
Qed.

(** failing lexical readers *)
Definition refuses {A} (m : M A) (txt : str) (D : str -> Prop) (P : err -> Prop) : Prop :=
  forall T s r, inv T s -> rest s = txt ++ r -> D r -> wp m (fun _ _ => False) (fun e s' => P e /\ inv T s') s.
Lemma document_fails_lex {A} o (m : M A) w0 at0 e body r (D : str -> Prop) (P : err -> Prop) :
  layout w0 -> attrs_text at0 e -> value_start (body ++ r) -> D r -> refuses m body D P ->
  exists e' sp, options_from_str o m (w0 ++ at0 ++ body ++ r) = RError e' sp /\ P e'.
Proof.
  intros L HA V HD HM. apply document_fails with e; auto. intros T s I Hs _ _ _ _. eapply HM; eauto.
Qed.
Lemma refuses_total {A} (m : M A) txt (D : str -> Prop) (P : err -> Prop) : total m ->
  (forall T s r, inv T s -> rest s = txt ++ r -> D r -> wp m (fun _ _ => False) (fun e _ => P e) s) -> refuses m txt D P.
Proof.
  intros TO H T s r I Hs HD. assert (W := wp_and _ _ _ _ _ _ (H T s r I Hs HD) (TO T s I)).
  eapply wp_conseq; [exact W|cbn beta; tauto|]. cbn beta. intros e s' (HP & A'). split; [assumption|]. apply A'.
Qed.
Lemma refuses_bind {A B} (m : M A) (k : A -> M B) txt D P : refuses m txt D P -> refuses (bind m k) txt D P.
Proof.
  intros H T s r I Hs HD. apply wp_bind. eapply wp_conseq; [eapply H; eassumption|contradiction|auto].
Qed.
Lemma reads_refuses {A B} (m : M A) (k : A -> M B) t1 t2 (D1 D2 : str -> Prop) a P :
  reads m t1 D1 a -> refuses (k a) t2 D2 P -> (forall r, D2 r -> D1 (t2 ++ r)) -> refuses (bind m k) (t1 ++ t2) D2 P.
Proof.
  intros H1 H2 HD T s r I Hs d. apply wp_bind. rewrite <- app_assoc in Hs.
  apply (wp_reads _ _ _ _ _ _ _ _ _ H1 I Hs); [auto|]. intros s' E' A'. eapply H2; eauto. apply A'.
Qed.

Lemma reads_map {A B} (m : M A) (f : A -> B) t D a : reads m t D a -> reads (x <- m ;; ret (f x)) t D (f a).
Proof. intros H. eapply reads_bind_l; [exact H|apply reads_ret|auto]. Qed.

(** the parsers as functions of the text *)
Lemma reads_run {A} (m : M A) t (D : str -> Prop) a r : reads m t D a -> D r ->
  exists s', m (init_state (t ++ r)) = Ok a s' /\ rest s' = r.
Proof.
  intros H d. assert (W := H _ _ r (init_inv (t ++ r)) eq_refl d).
  Transparent wp. unfold wp in W. Opaque wp. destruct (m _) as [a' s'|e s'| |]; try contradiction.
  destruct W as (-> & R & _). eauto.
Qed.

(** ** Integers *)
Lemma reads_int k t z : int_lit t z -> in_range k z = true -> reads (integer (Some k)) t (starts_not xid_continue) (k, z).
Proof.
  intros [sg neg p base ds z0 SG P N] R T s r I Hs D.
  eapply wp_conseq; [eapply (integer_wp (Some k)); eassumption| |].
  - intros a s' (_ & -> & R' & A'). auto.
  - intros e s' (R' & _). cbn [int_target] in R'. congruence.
Qed.
Lemma reads_int_suffix k t z : int_supported k = true -> int_lit t z -> in_range k z = true ->
  reads (integer (Some k)) (t ++ ik_suffix k) (starts_not xid_continue) (k, z).
Proof.
  intros S [sg neg p base ds z0 SG P N] R T s r I Hs D.
  eapply wp_conseq; [eapply (integer_suffix_wp (Some k)); try eassumption; rewrite <- ?app_assoc in *; eassumption| |].
  - intros a s' (_ & _ & -> & R' & A'). auto.
  - intros e s' [(R' & _)|(_ & _ & N' & _)]; congruence.
Qed.
Lemma refuses_int k t z : int_lit t z -> in_range k z = false ->
  refuses (integer (Some k)) t (starts_not xid_continue) (fun e => e = EIntegerOutOfBounds).
Proof.
  intros [sg neg p base ds z0 SG P N] R. apply refuses_total; [apply total_integer|]. intros T s r I Hs D.
  eapply wp_conseq; [eapply (integer_wp (Some k)); eassumption| |].
  - intros a s' (R' & _). cbn [int_target] in R'. congruence.
  - intros e s' (_ & ->). auto.
Qed.
Lemma refuses_int_suffix k k' t z : int_supported k' = true -> int_lit t z -> in_range k' z = false ->
  refuses (integer (Some k)) (t ++ ik_suffix k') (starts_not xid_continue) (fun e => e = EIntegerOutOfBounds).
Proof.
  intros S [sg neg p base ds z0 SG P N] R. apply refuses_total; [apply total_integer|]. intros T s r I Hs D.
  eapply wp_conseq; [eapply (integer_suffix_wp (Some k)); try eassumption; rewrite <- ?app_assoc in *; eassumption| |].
  - intros a s' (_ & R' & _). congruence.
  - intros e s' [(_ & ->)|(R' & _ & _ & _)]; [auto|congruence].
Qed.
Lemma refuses_int_other k k' t z : int_supported k' = true -> int_lit t z -> in_range k' z = true -> k <> k' ->
  refuses (integer (Some k)) (t ++ ik_suffix k') (starts_not xid_continue) (fun e => e = EInvalidValueForType).
Proof.
  intros S [sg neg p base ds z0 SG P N] R NK. apply refuses_total; [apply total_integer|]. intros T s r I Hs D.
  eapply wp_conseq; [eapply (integer_suffix_wp (Some k)); try eassumption; rewrite <- ?app_assoc in *; eassumption| |].
  - intros a s' ([F|F] & _); congruence.
  - intros e s' [(R' & ->)|(_ & _ & _ & ->)]; [congruence|auto].
Qed.

(** ** Where values begin *)
Lemma value_start_cons c t : is_ws_char c = false -> c <> c_slash -> c <> c_hash -> value_start (c :: t).
Proof. intros. repeat split; assumption. Qed.
Lemma string_start t s r : string_lit t s -> value_start (t ++ r).
Proof. destruct 1; apply value_start_cons; reflexivity || discriminate. Qed.
Lemma bytes_start t s r : bytes_lit t s -> value_start (t ++ r).
Proof. destruct 1; apply value_start_cons; reflexivity || discriminate. Qed.
Lemma char_start t s r : char_lit t s -> value_start (t ++ r).
Proof. destruct 1; apply value_start_cons; reflexivity || discriminate. Qed.
Lemma ws_not_digit c : is_digit c = true \/ c = c_plus \/ c = c_minus -> is_ws_char c = false /\ c <> c_slash /\ c <> c_hash.
Proof. unfold is_digit, is_ws_char. intros H. repeat split; lia. Qed.
Lemma int_start t z r : int_lit t z -> value_start (t ++ r).
Proof.
  intros [sg neg p base ds z0 SG P N].
  assert (H : exists c t', ((sg ++ p ++ ds) ++ r) = c :: t' /\ (is_digit c = true \/ c = c_plus \/ c = c_minus)).
  { destruct SG; [|eexists _, _; split; [reflexivity|tauto]..].
    destruct P; [|eexists _, _; split; [reflexivity|left; reflexivity]..].
    destruct (int_head _ _ _ N) as (c & d & t' & -> & HX & L). eexists _, _. split; [reflexivity|]. left.
    unfold is_digit. destruct HX; lia. }
  destruct H as (c & t' & -> & H). apply ws_not_digit in H as (? & ? & ?). now apply value_start_cons.
Qed.
Lemma numeral_start t r : numeral t -> value_start (t ++ r).
Proof.
  intros [sg neg ds fr ex SG NE D F X'].
  assert (H : exists c t', ((sg ++ ds ++ fr ++ ex) ++ r) = c :: t' /\ (is_digit c = true \/ c = c_plus \/ c = c_minus)).
  { destruct SG; [|eexists _, _; split; [reflexivity|tauto]..].
    destruct ds as [|c ds]; [contradiction|]. eexists _, _. split; [reflexivity|]. left. cbn in D. now apply andb_prop in D. }
  destruct H as (c & t' & -> & H). apply ws_not_digit in H as (? & ? & ?). now apply value_start_cons.
Qed.
Lemma float_start k sfx t b r : float_lit k sfx t b -> value_start (t ++ r).
Proof.
  intros H. revert r. induction H as [t b N _|t f S|t b F IH]; intros r.
  - now apply numeral_start.
  - destruct S; apply value_start_cons; reflexivity || discriminate.
  - rewrite <- app_assoc. apply IH.
Qed.

(** ** What the end of a document excludes *)
Lemma ws_not_float c : is_ws_char c = true \/ c = c_slash -> is_float_char c = false.
Proof. unfold is_ws_char, is_float_char, is_digit. lia. Qed.
Lemma slash_not_xid : xid_continue c_slash = false.
Proof. now rewrite xid_continue_ascii. Qed.
Lemma final_xid w : final_layout w -> starts_not xid_continue w.
Proof.
  intros H. destruct (final_head w H) as [->|(c & w' & -> & C)]; [exact Logic.I|]. cbn.
  destruct C as [C| ->]; [now apply ws_not_xid|apply slash_not_xid].
Qed.
Lemma final_float w : final_layout w -> float_end w.
Proof.
  intros H. left. destruct (final_head w H) as [->|(c & w' & -> & C)]; [exact Logic.I|]. cbn.
  rewrite ws_not_float by assumption.
  destruct C as [C| ->]; [now apply ws_not_xid|apply slash_not_xid].
Qed.
End WithEnv.

(** ** Names are never taken for keywords *)
Section Names.
Context {E : Env} {X : XidOk E}.
Lemma reserved_chars w : In w reserved -> forallb (fun c => is_alpha c || is_digit c) w = true /\
  match w with c :: _ => c <> c_r | [] => False end.
Proof. cbn. intros H. repeat (destruct H as [<-|H]; [split; [reflexivity|discriminate]|]). contradiction. Qed.
Lemma reserved_eq n : existsb (str_eqb n) reserved = false -> ~ In n reserved.
Proof.
  intros H IN. assert (F : existsb (str_eqb n) reserved = true); [|congruence].
  apply existsb_exists. exists n. split; [assumption|apply str_eqb_refl].
Qed.
Lemma ident_text_keyword n w r : In w reserved -> ident_end r -> ident_at w (ident_text n ++ r) = false.
Proof.
  intros IW D. set (t := ident_text n). assert (TN : (t = n /\ ~ In n reserved /\ forallb xid_continue n = true) \/ exists t', t = c_r :: c_hash :: t').
  { subst t. unfold ident_text. destruct (needs_raw n) eqn:NR; [right; cbn; eauto|left]. split; [reflexivity|].
    destruct n as [|c n]; [discriminate|]. cbn [needs_raw] in NR.
    apply orb_false_elim in NR as [NR N3]. apply orb_false_elim in NR as [N1 N2].
    split; [now apply reserved_eq|]. cbn [forallb].
    rewrite (first_continue c) by (now destruct (is_ident_first_char c)). now destruct (forallb xid_continue n). }
  clearbody t.
  unfold ident_at. destruct (strip_prefix w (t ++ r)) as [q|] eqn:SP; [|reflexivity].
  destruct (reserved_chars w IW) as [WC W0].
  apply strip_prefix_some in SP. destruct TN as [(-> & NI & XC)|(t' & ->)].
  2: { destruct w as [|c w]; [contradiction|]. cbn [app] in SP. injection SP as <- _. contradiction. }
  assert (AA : exists l, (n = w ++ l /\ q = l ++ r) \/ (w = n ++ l /\ r = l ++ q)).
  { symmetry in SP. apply app_eq_app in SP as (l & [[? ?]|[? ?]]); exists l; auto. }
  destruct AA as (l & [[-> ->]|[-> ->]]).
  - destruct l as [|x l]; [rewrite app_nil_r in NI; contradiction|]. cbn.
    rewrite forallb_app in XC. cbn in XC. destruct (xid_continue x); [reflexivity|lia].
  - destruct l as [|x l]; [rewrite app_nil_r in IW; contradiction|]. cbn in D. destruct D as (D & _).
    rewrite forallb_app in WC. cbn in WC. exfalso.
    assert (XX : xid_continue x = true) by (rewrite xid_continue_ascii; [lia|unfold is_alpha, is_digit in WC; lia]).
    apply continue_raw in XX. congruence.
Qed.
End Names.
