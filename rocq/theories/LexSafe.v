(** The tokenizer never panics, never runs out of fuel, and only moves forward. *)
From Coq Require Import String Ascii NArith ZArith Lia Bool List.
From Coq Require Import ZifyBool ZifyNat ZifyN.
From Verif Require Import Base Facts Base64 Parse Wp EnvOk.
Import ListNotations.
Open Scope N_scope.
Open Scope list_scope.
Open Scope m_scope.

Definition total {A} (m : M A) : Prop := forall T s, inv T s ->
  wp m (fun _ s' => adv T s s') (fun _ s' => adv T s s') s.
(** success consumes at least one character *)
Definition eats {A} (m : M A) : Prop := forall T s, inv T s ->
  wp m (fun _ s' => adv T s s' /\ (length (rest s') < length (rest s))%nat)
       (fun _ s' => adv T s s') s.

Lemma eats_total {A} (m : M A) : eats m -> total m.
Proof. intros H T s I. eapply wp_conseq; [apply (H T s I)| |]; cbn; tauto. Qed.
Lemma total_ret {A} (a : A) : total (ret a).
Proof. intros T s I. apply wp_ret, adv_refl, I. Qed.
Lemma total_fail {A} e : total (@fail A e).
Proof. intros T s I. apply wp_fail, adv_refl, I. Qed.
Lemma total_bind {A B} (m : M A) (k : A -> M B) :
  total m -> (forall a, total (k a)) -> total (bind m k).
Proof.
  intros H K T s I. apply wp_bind. eapply wp_conseq; [apply (H T s I)| |auto].
  intros a s' V. cbn in V. eapply wp_conseq; [apply (K a T s' (adv_inv _ _ _ V))| |]; cbn;
  intros; eapply adv_trans; eauto.
Qed.
Lemma total_try {A B} (m : M A) (k : A -> M B) (h : err -> M B) :
  total m -> (forall a, total (k a)) -> (forall e, total (h e)) -> total (try m k h).
Proof.
  intros H K L T s I. apply wp_try. eapply wp_conseq; [apply (H T s I)| |];
  intros a s' V; cbn in V;
  (eapply wp_conseq; [apply (K a T s' (adv_inv _ _ _ V)) || apply (L a T s' (adv_inv _ _ _ V))| |]); cbn;
  intros; eapply adv_trans; eauto.
Qed.
Lemma total_map_err {A} f (m : M A) : total m -> total (map_err f m).
Proof. intros H T s I. apply wp_map_err, H, I. Qed.
Lemma total_get : total get.
Proof. intros T s I. apply wp_get, adv_refl, I. Qed.
Lemma total_src : total src.
Proof. intros T s I. eapply wp_ok; [reflexivity|]. apply adv_refl, I. Qed.
Lemma total_get_cursor : total get_cursor_m.
Proof. intros T s I. eapply wp_ok; [reflexivity|]. apply adv_refl, I. Qed.
Lemma eats_bind {A B} (m : M A) (k : A -> M B) :
  eats m -> (forall a, total (k a)) -> eats (bind m k).
Proof.
  intros H K T s I. apply wp_bind. eapply wp_conseq; [apply (H T s I)| |auto].
  intros a s' [V L]. eapply wp_conseq; [apply (K a T s' (adv_inv _ _ _ V))| |]; cbn; intros b s'' W.
  - split; [eapply adv_trans; eauto|]. destruct W as (_ & W & _). apply suf_length in W. lia.
  - eapply adv_trans; eauto.
Qed.
Lemma eats_bind_r {A B} (m : M A) (k : A -> M B) :
  total m -> (forall a, eats (k a)) -> eats (bind m k).
Proof.
  intros H K T s I. apply wp_bind. eapply wp_conseq; [apply (H T s I)| |auto].
  intros a s' V. cbn in V. eapply wp_conseq; [apply (K a T s' (adv_inv _ _ _ V))| |]; cbn.
  - intros b s'' [W L]. split; [eapply adv_trans; eauto|].
    destruct V as (_ & V & _). apply suf_length in V. lia.
  - intros. eapply adv_trans; eauto.
Qed.
Lemma eats_fail {A} e : eats (@fail A e).
Proof. intros T s I. apply wp_fail, adv_refl, I. Qed.
Lemma eats_map_err {A} f (m : M A) : eats m -> eats (map_err f m).
Proof. intros H T s I. apply wp_map_err, H, I. Qed.

(** using a [total] or [eats] fact inside a wp proof *)
Lemma wp_total {A} (m : M A) T s (Q : A -> st -> Prop) (R : err -> st -> Prop) : total m -> inv T s ->
  (forall a s', adv T s s' -> Q a s') -> (forall e s', adv T s s' -> R e s') -> wp m Q R s.
Proof. intros H I K L. eapply wp_conseq; [apply (H T s I)| |]; cbn; auto. Qed.
Lemma wp_eats {A} (m : M A) T s (Q : A -> st -> Prop) (R : err -> st -> Prop) : eats m -> inv T s ->
  (forall a s', adv T s s' -> (length (rest s') < length (rest s))%nat -> Q a s') ->
  (forall e s', adv T s s' -> R e s') -> wp m Q R s.
Proof. intros H I K L. eapply wp_conseq; [apply (H T s I)| |]; cbn; intuition auto. Qed.

Section WithEnv.
Context {E : Env}.

Lemma total_next_char : total next_char.
Proof.
  intros T s I. destruct (rest s) as [|c r] eqn:X.
  - eapply wp_err; [unfold next_char; now rewrite X|]. apply adv_refl, I.
  - eapply wp_ok; [unfold next_char; now rewrite X|]. apply adv_set_rest; [assumption|].
    rewrite X. apply suf_cons.
Qed.
Lemma eats_next_char : eats next_char.
Proof.
  intros T s I. destruct (rest s) as [|c r] eqn:X.
  - eapply wp_err; [unfold next_char; now rewrite X|]. apply adv_refl, I.
  - eapply wp_ok; [unfold next_char; now rewrite X|]. split; [apply adv_set_rest; [assumption|]|].
    + rewrite X. apply suf_cons.
    + cbn. lia.
Qed.
Lemma total_skip_next_char : total skip_next_char.
Proof. apply total_try; [apply total_next_char| |]; intros; apply total_ret. Qed.
Lemma total_peek_char : total peek_char.
Proof. intros T s I. eapply wp_ok; [reflexivity|]. apply adv_refl, I. Qed.
Lemma total_peek_char_or_eof : total peek_char_or_eof.
Proof.
  intros T s I. destruct (rest s) as [|c r] eqn:X.
  - eapply wp_err; [unfold peek_char_or_eof; now rewrite X|]. apply adv_refl, I.
  - eapply wp_ok; [unfold peek_char_or_eof; now rewrite X|]. apply adv_refl, I.
Qed.
Lemma total_check_char c : total (check_char c).
Proof. intros T s I. eapply wp_ok; [reflexivity|]. apply adv_refl, I. Qed.
Lemma total_check_str c : total (check_str c).
Proof. intros T s I. eapply wp_ok; [reflexivity|]. apply adv_refl, I. Qed.

(** the outcome of a consuming test *)
Lemma wp_consume_str p T s (Q : bool -> st -> Prop) (R : err -> st -> Prop) : inv T s ->
  (forall r, rest s = p ++ r -> adv T s (moved r s) -> Q true (moved r s)) ->
  (starts_with p (rest s) = false -> Q false s) -> wp (consume_str p) Q R s.
Proof.
  intros I A B. destruct (strip_prefix p (rest s)) as [r|] eqn:X.
  - eapply wp_ok; [rewrite consume_str_eq, X; reflexivity|]. apply strip_prefix_some in X.
    apply A; [assumption|]. apply adv_moved; [assumption|]. rewrite X. apply suf_app.
  - eapply wp_ok; [rewrite consume_str_eq, X; reflexivity|]. apply B. unfold starts_with.
    now rewrite X.
Qed.
Lemma wp_consume_char c T s (Q : bool -> st -> Prop) (R : err -> st -> Prop) : inv T s ->
  (forall r, rest s = c :: r -> adv T s (moved r s) -> Q true (moved r s)) ->
  (starts_with [c] (rest s) = false -> Q false s) -> wp (consume_char c) Q R s.
Proof.
  intros I A B. destruct (rest s) as [|d r] eqn:X.
  - eapply wp_ok; [rewrite consume_char_eq, X; reflexivity|]. now apply B.
  - destruct (d =? c) eqn:D.
    + eapply wp_ok; [rewrite consume_char_eq, X, D; reflexivity|]. apply N.eqb_eq in D as ->.
      apply A; [reflexivity|]. apply adv_moved; [assumption|]. rewrite X. apply suf_cons.
    + eapply wp_ok; [rewrite consume_char_eq, X, D; reflexivity|]. apply B.
      unfold starts_with. cbn. rewrite N.eqb_sym, D. reflexivity.
Qed.
Lemma wp_consume_ident w T s (Q : bool -> st -> Prop) (R : err -> st -> Prop) : inv T s ->
  (forall r, rest s = w ++ r -> adv T s (moved r s) -> Q true (moved r s)) ->
  Q false s -> wp (consume_ident w) Q R s.
Proof.
  intros I A B. destruct (consume_ident_cases w s) as [(r & H & H')|H].
  - eapply wp_ok; [exact H'|]. apply A; [assumption|]. apply adv_moved; [assumption|].
    rewrite H. apply suf_app.
  - eapply wp_ok; [exact H|]. exact B.
Qed.
Lemma total_consume_str p : total (consume_str p).
Proof. intros T s I. apply wp_consume_str with T; auto. intros; now apply adv_refl. Qed.
Lemma total_consume_char p : total (consume_char p).
Proof. intros T s I. apply wp_consume_char with T; auto. intros; now apply adv_refl. Qed.
Lemma total_consume_ident p : total (consume_ident p).
Proof. intros T s I. apply wp_consume_ident with T; auto. intros; now apply adv_refl. Qed.
Lemma total_check_ident w : total (check_ident w).
Proof. intros T s I. eapply wp_ok; [apply check_ident_eq|]. now apply adv_refl. Qed.
Lemma total_expect_char c e : total (expect_char c e).
Proof.
  apply total_bind; [apply total_consume_char|]. intros []; [apply total_ret|apply total_fail].
Qed.
Lemma eats_expect_char c e : eats (expect_char c e).
Proof.
  intros T s I. apply wp_bind, wp_consume_char with T; auto.
  - intros r H A. apply wp_ret. split; [assumption|]. rewrite H. cbn. lia.
  - intros _. apply wp_fail, adv_refl, I.
Qed.
Lemma total_next_while p : total (next_chars_while_len p).
Proof. intros T s I. eapply wp_ok; [apply next_while_eq|]. now apply adv_refl. Qed.

(** [next_chars_while_len] then [advance_bytes] of that length *)
Lemma wp_advance_while {A} p T s (k : M A) Q R : inv T s ->
  (adv T s (moved (dropwhile p (rest s)) s) -> wp k Q R (moved (dropwhile p (rest s)) s)) ->
  wp (n <- next_chars_while_len p ;; advance_bytes n ;;; k) Q R s.
Proof.
  intros I H. eapply wp_bind_ok; [apply next_while_eq|].
  eapply wp_bind_ok; [apply advance_while|]. apply H.
  apply adv_moved; [assumption|apply suf_dropwhile].
Qed.

(** ** Whitespace *)

Lemma block_loop_total fuel level T s : inv T s -> (length (rest s) < fuel)%nat ->
  wp (block_loop fuel level) (fun _ s' => adv T s s') (fun _ s' => adv T s s') s.
Proof.
  revert level s; induction fuel as [|f IH]; intros level s I L; [lia|].
  destruct level as [|lower]; [apply wp_ret; now apply adv_refl|].
  cbn [block_loop].
  eapply wp_bind_ok; [apply next_while_eq|].
  eapply wp_bind_ok; [reflexivity|].
  destruct (rest s) as [|c r] eqn:X; [apply wp_fail; now apply adv_refl|]. rewrite <- X in *.
  eapply wp_bind_ok; [apply advance_while|].
  set (s1 := moved _ s).
  assert (A1 : adv T s s1) by (apply adv_moved; [assumption|apply suf_dropwhile]).
  assert (L1 : (length (rest s1) <= length (rest s))%nat) by (apply suf_length, A1).
  assert (I1 := adv_inv _ _ _ A1).
  apply wp_bind, wp_consume_str with T; [assumption| |].
  { intros r2 H2 A2. eapply wp_conseq; [apply IH| |]; cbn.
    - apply A2.
    - rewrite H2, app_length in L1. cbn in *. lia.
    - intros _ s' A. eapply adv_trans; [exact A1|]. eapply adv_trans; eassumption.
    - intros _ s' A. eapply adv_trans; [exact A1|]. eapply adv_trans; eassumption. }
  intros _. apply wp_bind, wp_consume_str with T; [assumption| |].
  { intros r2 H2 A2. eapply wp_conseq; [apply IH| |]; cbn.
    - apply A2.
    - rewrite H2, app_length in L1. cbn in *. lia.
    - intros _ s' A. eapply adv_trans; [exact A1|]. eapply adv_trans; eassumption.
    - intros _ s' A. eapply adv_trans; [exact A1|]. eapply adv_trans; eassumption. }
  intros _. apply wp_bind, wp_map_err.
  apply wp_eats with T; [apply eats_next_char|assumption| |].
  - intros a s2 A2 L2. eapply wp_conseq; [apply IH| |]; cbn.
    + apply A2.
    + lia.
    + intros _ s' A. eapply adv_trans; [exact A1|]. eapply adv_trans; eassumption.
    + intros _ s' A. eapply adv_trans; [exact A1|]. eapply adv_trans; eassumption.
  - intros e s2 A2. eapply adv_trans; eassumption.
Qed.

(** what skip_comment does to the state *)
Lemma skip_comment_total T s : inv T s ->
  wp skip_comment
     (fun c s' => adv T s s' /\ (c <> None -> (length (rest s') < length (rest s))%nat))
     (fun _ s' => adv T s s') s.
Proof.
  intros I. unfold skip_comment. apply wp_bind, wp_consume_char with T; [assumption| |].
  2:{ intros _. apply wp_ret. split; [now apply adv_refl|]. congruence. }
  intros r H A. assert (I1 := adv_inv _ _ _ A).
  apply wp_bind. apply wp_eats with T; [apply eats_next_char|assumption| |].
  2:{ intros e s' A'. eapply adv_trans; eassumption. }
  intros c s2 A2 L2. cbn in L2. assert (I2 := adv_inv _ _ _ A2).
  assert (A02 := adv_trans _ _ _ _ A A2). rewrite H. cbn [length].
  destruct (c =? c_slash).
  { apply wp_advance_while with T; [assumption|]. intros A3.
    eapply wp_bind_ok; [reflexivity|]. apply wp_ret. split; [eapply adv_trans; eassumption|].
    intros _. destruct A3 as (_ & A3 & _). apply suf_length in A3. cbn in *. lia. }
  destruct (c =? c_star).
  { eapply wp_bind_ok; [reflexivity|]. apply wp_bind. eapply wp_conseq; [apply block_loop_total| |].
    - exact I2.
    - lia.
    - cbn. intros _ s3 A3. apply wp_ret. split; [eapply adv_trans; eassumption|].
      intros _. destruct A3 as (_ & A3 & _). apply suf_length in A3. cbn in *. lia.
    - cbn. intros _ s3 A3. eapply adv_trans; eassumption. }
  apply wp_fail. assumption.
Qed.

Lemma ws_loop_total fuel T s : inv T s -> (length (rest s) < fuel)%nat ->
  wp (ws_loop fuel) (fun _ s' => adv T s s') (fun _ s' => adv T s s') s.
Proof.
  revert s; induction fuel as [|f IH]; intros s I L; [lia|]. cbn [ws_loop].
  apply wp_advance_while with T; [assumption|]. intros A1.
  set (s1 := moved _ s) in *. assert (I1 := adv_inv _ _ _ A1).
  assert (L1 : (length (rest s1) <= length (rest s))%nat) by (apply suf_length, A1).
  apply wp_bind. eapply wp_conseq; [apply (skip_comment_total T s1 I1)| |]; cbn.
  2:{ intros _ s2 A2. eapply adv_trans; eassumption. }
  intros c s2 [A2 L2].
  assert (go : (length (rest s2) < length (rest s1))%nat ->
               wp (ws_loop f) (fun _ s' => adv T s s') (fun _ s' => adv T s s') s2).
  { intros L3. eapply wp_conseq; [apply IH; [apply A2|lia]| |]; cbn;
    intros _ s3 A3; eapply adv_trans; [exact A1| |exact A1|]; eapply adv_trans; eassumption. }
  destruct c as [[]|]; [apply go|apply wp_ret|apply go|apply wp_ret];
    try (eapply adv_trans; eassumption); apply L2; discriminate.
Qed.

Lemma track_ws_rest s : rest (track_ws s) = rest s.
Proof. unfold track_ws. destruct (last_ws s); [destruct (Nat.ltb _ _)|]; reflexivity. Qed.
Lemma track_ws_adv T s : inv T s -> adv T s (track_ws s).
Proof.
  intros I. unfold track_ws. destruct (last_ws s) as [l|]; [|now apply adv_refl].
  destruct (Nat.ltb _ _); [|now apply adv_refl].
  split; [|split; [apply suf_refl|unfold kept; auto]].
  assert (X := inv_rest _ _ I). destruct I as (A & B & C).
  unfold inv. cbn. repeat split; auto. apply suf_refl.
Qed.

Lemma total_skip_ws : total skip_ws.
Proof.
  intros T s I. unfold skip_ws. apply wp_bind, wp_modify.
  assert (A := track_ws_adv T s I). set (s1 := track_ws s) in *. assert (I1 := adv_inv _ _ _ A).
  eapply wp_bind_ok; [reflexivity|].
  destruct (rest s1) as [|c r] eqn:X; [now apply wp_ret|]. rewrite <- X.
  apply wp_bind. eapply wp_conseq; [apply ws_loop_total; [exact I1|lia]| |]; cbn.
  2:{ intros _ s2 A2. eapply adv_trans; eassumption. }
  intros u s2 A2. assert (A02 := adv_trans _ _ _ _ A A2).
  destruct u; [apply wp_modify; exact A02|].
  assert (I2 := adv_inv _ _ _ A02). eapply wp_ok.
  - unfold update_last_ws. replace (Nat.leb _ _) with true; [reflexivity|].
    symmetry. apply Nat.leb_le. apply suf_blen. apply I2.
  - exact A02.
Qed.

Lemma total_comma : total comma.
Proof.
  unfold comma. apply total_bind; [apply total_skip_ws|]. intros _.
  apply total_bind; [apply total_consume_char|]. intros [].
  - apply total_bind; [apply total_skip_ws|]. intros _. apply total_ret.
  - apply total_ret.
Qed.
(** a comma found is a character consumed *)
Lemma comma_total T s : inv T s ->
  wp comma (fun b s' => adv T s s' /\ (b = true -> (length (rest s') < length (rest s))%nat))
     (fun _ s' => adv T s s') s.
Proof.
  intros I. unfold comma. apply wp_bind. apply wp_total with T; [apply total_skip_ws|assumption| |auto].
  intros _ s1 A1. assert (I1 := adv_inv _ _ _ A1).
  apply wp_bind, wp_consume_char with T; [assumption| |].
  - intros r H A2. apply wp_bind. apply wp_total with T; [apply total_skip_ws|apply A2| |].
    + intros _ s3 A3. apply wp_ret. split; [eapply adv_trans; [eassumption|]; eapply adv_trans; eassumption|].
      intros _. destruct A1 as (_ & A1 & _). destruct A3 as (_ & A3 & _).
      apply suf_length in A1. apply suf_length in A3. rewrite H in A1. cbn in *. lia.
    + intros e s3 A3. eapply adv_trans; [eassumption|]; eapply adv_trans; eassumption.
  - intros _. apply wp_ret. split; [assumption|discriminate].
Qed.

Lemma total_consume_all l : total (consume_all l).
Proof.
  induction l as [|p l IH]; cbn [consume_all]; [apply total_ret|].
  apply total_bind.
  - apply total_bind; [apply total_consume_str|]. intros []; [|apply total_ret].
    apply total_bind; [apply total_skip_ws|]. intros. apply total_ret.
  - intros b. apply total_bind; [exact IH|]. intros c. apply total_ret.
Qed.

(** ** Identifiers *)

Lemma total_check_other_0 : total (check_ident_other_char 0).
Proof.
  intros T s I. unfold check_ident_other_char. eapply wp_bind_ok; [reflexivity|].
  rewrite bdrop_0. apply wp_ret. now apply adv_refl.
Qed.

Lemma is_ident_raw_under : forall c, is_ident_raw_char c = true \/ is_ident_raw_char c = false.
Proof. intros. destruct (is_ident_raw_char c); auto. Qed.

(** skip_identifier takes at least one character when it takes any *)
Lemma skip_identifier_total T s : inv T s ->
  wp skip_identifier
     (fun o s' => adv T s s' /\ (o <> None -> (length (rest s') < length (rest s))%nat) /\
                  (o = None -> s' = s))
     (fun _ s' => False) s.
Proof.
  intros I. unfold skip_identifier. eapply wp_bind_ok; [reflexivity|].
  destruct (starts_string_literal (rest s)).
  { apply wp_ret. split; [now apply adv_refl|]. split; [congruence|auto]. }
  destruct (starts_with s_rh (rest s)) eqn:SR.
  { apply starts_with_true in SR as [r H].
    eapply wp_bind_ok; [apply next_while_from_eq with (a := s_rh) (r := r); [assumption|reflexivity]|].
    destruct (Nat.ltb 0 (blen (takewhile is_ident_raw_char r))) eqn:N.
    - rewrite H.
      change 2%nat with (blen s_rh). apply wp_bind. eapply wp_of_slice; [apply bdrop_app|].
      apply wp_bind. eapply wp_of_slice; [apply btake_takewhile|].
      eapply wp_bind_ok.
      { eapply advance_ok with (p := s_rh ++ takewhile is_ident_raw_char r)
                              (r := dropwhile is_ident_raw_char r).
        - rewrite <- app_assoc, <- take_drop_while. assumption.
        - rewrite blen_app. reflexivity. }
      apply wp_ret. split; [|split; [|discriminate]].
      + apply adv_moved; [assumption|]. rewrite H. eapply suf_trans; [apply suf_dropwhile|apply suf_app].
      + intros _. cbn [moved rest set_rest]. assert (X := suf_length _ _ (suf_dropwhile is_ident_raw_char r)).
        rewrite app_length. cbn. lia.
    - apply wp_ret. split; [now apply adv_refl|]. split; [congruence|auto]. }
  destruct (rest s) as [|c r] eqn:X.
  { apply wp_ret. split; [now apply adv_refl|]. split; [congruence|auto]. }
  destruct (is_ident_first_char c).
  - eapply wp_bind_ok; [apply next_while_from_eq with (a := [c]) (r := r); [assumption|cbn; lia]|]. cbv zeta.
    assert (B : (len_utf8 c + blen (takewhile xid_continue r))%nat = blen (c :: takewhile xid_continue r))
      by reflexivity.
    apply wp_bind. eapply wp_of_slice.
    { rewrite B. rewrite (take_drop_while xid_continue r) at 2.
      change (c :: takewhile xid_continue r ++ ?x) with ((c :: takewhile xid_continue r) ++ x).
      apply btake_app. }
    eapply wp_bind_ok.
    { eapply advance_ok with (p := c :: takewhile xid_continue r) (r := dropwhile xid_continue r).
      - rewrite X. cbn. now rewrite <- take_drop_while.
      - reflexivity. }
    apply wp_ret. split; [|split; [|discriminate]].
    + apply adv_moved; [assumption|]. rewrite X. eapply suf_trans; [apply suf_dropwhile|apply suf_cons].
    + intros _. cbn [moved rest set_rest length].
      assert (Y := suf_length _ _ (suf_dropwhile xid_continue r)). lia.
  - apply wp_ret. split; [now apply adv_refl|]. split; [congruence|auto].
Qed.
Lemma total_skip_identifier : total skip_identifier.
Proof.
  intros T s I. eapply wp_conseq; [apply skip_identifier_total, I| |]; cbn; tauto.
Qed.

(** rewinding to a state the parser has been in *)
Lemma adv_rewind T s0 s1 : inv T s0 -> adv T s0 s1 -> adv T s0 (set_cursor (get_cursor s0) s1).
Proof.
  intros (A & B & C) ((A' & B' & C') & S & K). unfold set_cursor, get_cursor.
  split; [|split; [apply suf_refl|exact K]]. unfold inv. cbn. auto.
Qed.

Lemma slice_before_ok a b s : suf b a -> exists p, a = p ++ b /\ slice_before a b s = Ok p s.
Proof.
  intros [p ->]. exists p. split; [reflexivity|]. unfold slice_before.
  rewrite blen_app. replace (Nat.leb _ _) with true by lia.
  replace (blen p + blen b - blen b)%nat with (blen p) by lia. now rewrite btake_app.
Qed.
Lemma wp_slice_before a b s (Q : str -> st -> Prop) (R : err -> st -> Prop) :
  suf b a -> (forall p, a = p ++ b -> Q p s) -> wp (slice_before a b) Q R s.
Proof.
  intros S H. destruct (slice_before_ok a b s S) as (p & Hp & X).
  eapply wp_ok; [exact X|]. now apply H.
Qed.

Lemma wp_rewind_fail {A} T s s1 e (Q : A -> st -> Prop) : inv T s -> adv T s s1 ->
  wp (set_cursor_m (get_cursor s) ;;; fail e) Q (fun _ s' => adv T s s') s1.
Proof. intros I A'. apply wp_bind, wp_modify, wp_fail. now apply adv_rewind. Qed.

Context {X : XidOk E}.

(** the length computations of [identifier] on a plain identifier *)
Lemma std_len_eq c r s : rest s = c :: r -> is_ident_first_char c = true ->
  (if c =? c_r then next_chars_while_len xid_continue
   else n <- next_chars_while_from_len (len_utf8 c) xid_continue ;;
        ret (len_utf8 c + n)%nat) s = Ok (blen (c :: takewhile xid_continue r)) s.
Proof.
  intros H F. destruct (c =? c_r).
  - rewrite next_while_eq, H. cbn [takewhile]. now rewrite first_continue.
  - unfold bind. rewrite (next_while_from_eq _ _ [c] r); [reflexivity|assumption|cbn; lia].
Qed.

Lemma identifier_eats : eats identifier.
Proof.
  intros T s I. unfold identifier.
  destruct (rest s) as [|c r] eqn:Hs.
  { apply wp_bind. eapply wp_err; [unfold peek_char_or_eof; now rewrite Hs|]. now apply adv_refl. }
  eapply wp_bind_ok; [unfold peek_char_or_eof; rewrite Hs; reflexivity|].
  eapply wp_bind_ok; [reflexivity|]. rewrite Hs.
  destruct (is_ident_first_char c) eqn:FC; cbn [negb].
  2:{ destruct (is_ident_raw_char c); [|apply wp_fail; now apply adv_refl].
      eapply wp_bind_ok; [apply next_while_eq|]. rewrite Hs.
      apply wp_bind. eapply wp_of_slice; [apply btake_takewhile|].
      apply wp_fail; now apply adv_refl. }
  destruct (starts_string_literal (c :: r)); [apply wp_fail; now apply adv_refl|].
  destruct (starts_with s_rh (c :: r)) eqn:SR.
  - apply starts_with_true in SR as [t Ht]. rewrite Ht in *.
    apply wp_bind. eapply wp_bind_ok; [reflexivity|].
    eapply wp_bind_ok; [eapply advance_ok with (p := s_rh) (r := t); [assumption|reflexivity]|].
    eapply wp_bind_ok; [reflexivity|]. cbn [moved rest set_rest].
    assert (A : adv T s (moved t s)).
    { apply adv_moved; [assumption|]. rewrite Hs. apply suf_app. }
    destruct t as [|d t]; [now apply wp_rewind_fail|].
    destruct (is_ident_raw_char d) eqn:RC; [|now apply wp_rewind_fail].
    eapply wp_ok; [apply next_while_eq|]. eapply wp_bind_ok; [reflexivity|].
    apply wp_bind. eapply wp_of_slice; [apply btake_takewhile|].
    eapply wp_bind_ok; [apply advance_while|]. apply wp_ret. split.
    + eapply adv_trans; [exact A|]. apply adv_moved; [apply A|apply suf_dropwhile].
    + cbn [moved rest set_rest dropwhile].
      rewrite RC. assert (Y := suf_length _ _ (suf_dropwhile is_ident_raw_char t)). cbn. lia.
  - apply wp_bind. eapply wp_bind_ok; [apply std_len_eq with (r := r); assumption|].
    eapply wp_bind_ok; [apply next_while_eq|]. rewrite Hs.
    destruct (Nat.ltb _ _).
    { apply wp_bind. eapply wp_of_slice; [apply btake_takewhile|]. apply wp_fail; now apply adv_refl. }
    apply wp_ret. eapply wp_bind_ok; [reflexivity|]. rewrite Hs.
    assert (Hs' : c :: r = (c :: takewhile xid_continue r) ++ dropwhile xid_continue r).
    { cbn. now rewrite <- take_drop_while. }
    apply wp_bind. eapply wp_of_slice; [rewrite Hs'; apply btake_app|].
    eapply wp_bind_ok; [eapply advance_ok with (p := c :: takewhile xid_continue r) (r := dropwhile xid_continue r);
                        [rewrite Hs; exact Hs'|reflexivity]|].
    apply wp_ret. split.
    + apply adv_moved; [assumption|]. rewrite Hs. eapply suf_trans; [apply suf_dropwhile|apply suf_cons].
    + cbn. assert (Y := suf_length _ _ (suf_dropwhile xid_continue r)). lia.
Qed.

Lemma total_consume_struct_name name : total (consume_struct_name name).
Proof.
  unfold consume_struct_name. apply total_bind; [apply total_check_ident|]. intros [].
  - apply total_bind; [apply total_get|]. intros s. destruct (x_explicit_struct_names _).
    + apply total_fail. + apply total_ret.
  - apply total_try; [apply eats_total, identifier_eats| |].
    + intros id. destruct name; [apply total_fail|]. destruct (str_eqb _ _); [apply total_ret|apply total_fail].
    + intros e. destruct e; try apply total_fail. destruct (str_eqb _ _); apply total_fail.
Qed.

(** ** Numbers *)

Lemma total_decode_hex c : total (decode_hex c).
Proof. unfold decode_hex. destruct (hex_val c); [apply total_ret|apply total_fail]. Qed.

Lemma int_digits_total k base neg T s done digits r acc : inv T s ->
  rest s = (done ++ digits) ++ r ->
  wp (int_digits k base neg (blen (done ++ digits)) (blen done) digits acc)
     (fun _ s' => adv T s s' /\ rest s' = r) (fun _ s' => adv T s s') s.
Proof.
  intros I. revert done acc. induction digits as [|c ds IH]; intros done acc H; cbn [int_digits].
  - eapply wp_bind_ok; [eapply advance_ok with (r := r); [eassumption|reflexivity]|].
    apply wp_ret. split; [|reflexivity]. apply adv_moved; [assumption|]. rewrite H. apply suf_app.
  - assert (STOP : forall (Q : Z -> st -> Prop) e,
      wp (advance_bytes (blen (done ++ c :: ds)) ;;; fail e) Q (fun _ s' => adv T s s') s).
    { intros Q e. eapply wp_bind_ok; [eapply advance_ok with (r := r); [eassumption|reflexivity]|].
      apply wp_fail. apply adv_moved; [assumption|]. rewrite H. apply suf_app. }
    assert (NEXT : forall acc', wp (int_digits k base neg (blen (done ++ c :: ds))
                     (blen done + len_utf8 c) ds acc')
                   (fun _ s' => adv T s s' /\ rest s' = r) (fun _ s' => adv T s s') s).
    { intros acc'. specialize (IH (done ++ [c]) acc').
      replace ((done ++ [c]) ++ ds) with (done ++ c :: ds) in IH by (now rewrite <- app_assoc).
      replace (blen done + len_utf8 c)%nat with (blen (done ++ [c])) by (rewrite blen_app; cbn; lia).
      now apply IH. }
    destruct (c =? c_us); [apply NEXT|].
    destruct (negb (in_range k (acc * base))); [apply STOP|].
    unfold decode_hex. destruct (hex_val c) as [d|].
    2:{ apply wp_bind, wp_fail. now apply adv_refl. }
    apply wp_bind, wp_ret. destruct (base <=? Z.of_N d)%Z.
    { eapply wp_bind_ok; [eapply advance_ok with (r := (c :: ds) ++ r);
                          [rewrite app_assoc; eassumption|reflexivity]|].
      apply wp_fail. apply adv_moved; [assumption|]. rewrite H, <- app_assoc. apply suf_app. }
    cbv zeta. destruct (negb _); [apply STOP|apply NEXT].
Qed.

Lemma parse_integer_eats k neg base T s : inv T s ->
  wp (parse_integer k neg base)
     (fun _ s' => adv T s s' /\ rest s' = dropwhile is_int_char (rest s)
                  /\ (length (rest s') < length (rest s))%nat)
     (fun _ s' => adv T s s') s.
Proof.
  intros I. unfold parse_integer. eapply wp_bind_ok; [apply next_while_eq|].
  destruct (Nat.eqb _ 0) eqn:Z; [apply wp_fail; now apply adv_refl|].
  eapply wp_bind_ok; [reflexivity|].
  destruct (match rest s with [] => false | d :: _ => d =? c_us end); [apply wp_fail; now apply adv_refl|].
  eapply wp_bind_ok; [reflexivity|].
  apply wp_bind. eapply wp_of_slice; [apply btake_takewhile|].
  eapply wp_conseq; [apply (int_digits_total k base neg T s [] (takewhile is_int_char (rest s))
                              (dropwhile is_int_char (rest s)))| |]; cbn.
  - assumption.
  - apply take_drop_while.
  - intros _ s' [A B]. split; [assumption|]. split; [assumption|].
    rewrite B. rewrite (take_drop_while is_int_char (rest s)) at 2. rewrite app_length.
    destruct (takewhile is_int_char (rest s)); cbn in *; [discriminate|lia].
  - auto.
Qed.
Lemma total_parse_integer k neg base : total (parse_integer k neg base).
Proof. intros T s I. eapply wp_conseq; [apply parse_integer_eats, I| |]; cbn; tauto. Qed.

Lemma total_int_parse t neg base : total (int_parse t neg base).
Proof.
  unfold int_parse. destruct t; [|destruct neg];
    (apply total_bind; [apply total_parse_integer|intros; apply total_ret]).
Qed.
Lemma total_try_from_int t p : total (try_from_parsed_integer t p).
Proof.
  unfold try_from_parsed_integer. destruct t; [destruct (ik_eqb _ _)|];
    (apply total_ret || apply total_fail).
Qed.
Lemma total_int_suffix l : total (consume_int_suffix l).
Proof.
  induction l; cbn [consume_int_suffix]; [apply total_ret|].
  apply total_bind; [apply total_consume_ident|]. intros []; [apply total_ret|assumption].
Qed.

Lemma total_decode_ascii : total decode_ascii_escape.
Proof.
  unfold decode_ascii_escape.
  repeat (apply total_bind; [first [apply total_next_char|apply total_decode_hex]|intros ?]).
  apply total_ret.
Qed.
Lemma total_escape_more n acc : total (escape_more n acc).
Proof.
  revert acc. induction n; intros acc; cbn [escape_more]; [apply total_fail|].
  apply total_bind; [apply total_consume_str|]. intros []; [|apply total_fail].
  apply total_bind; [apply total_decode_ascii|]. intros x. cbv zeta.
  destruct (from_utf8 _) as [[|c l]|]; [apply IHn|apply total_ret|apply IHn].
Qed.
Lemma total_unicode_digits n c acc : total (unicode_digits n c acc).
Proof.
  revert c acc. induction n; intros k acc; cbn [unicode_digits]; [apply total_ret|].
  apply total_bind; [apply total_peek_char_or_eof|]. intros c.
  destruct (c =? c_rc); [apply total_ret|].
  apply total_bind; [apply total_skip_next_char|]. intros _.
  apply total_bind; [apply total_decode_hex|]. intros d. apply IHn.
Qed.
Lemma total_parse_escape b c : total (parse_escape b c).
Proof.
  unfold parse_escape. apply total_bind; [apply total_next_char|]. intros x.
  repeat (match goal with |- total (if ?q then _ else _) => destruct q end; try apply total_ret);
    try apply total_fail.
  - apply total_bind; [apply total_decode_ascii|]. intros y.
    destruct b; [apply total_ret|]. destruct (from_utf8 _) as [[|z l]|];
    try apply total_ret; (destruct c; [apply total_fail|apply total_escape_more]).
  - apply total_bind; [apply total_expect_char|]. intros _.
    apply total_bind; [apply total_unicode_digits|]. intros [n v].
    destruct (Nat.eqb n 0); [apply total_fail|].
    apply total_bind; [apply total_expect_char|]. intros _.
    destruct (is_scalar v); [apply total_ret|apply total_fail].
Qed.

(** a computation that slices the text it started from *)
Definition total_from {A} (backup : str) (m : M A) : Prop := forall T s, inv T s ->
  suf (rest s) backup ->
  wp m (fun _ s' => adv T s s') (fun _ s' => adv T s s') s.

Lemma byte_literal_total t backup : total_from backup (byte_literal t backup).
Proof.
  intros T s I B. unfold byte_literal.
  apply wp_bind. apply wp_total with T; [apply total_next_char|assumption| |auto].
  intros c s1 A1. apply wp_bind. apply wp_total with T; [|apply A1| |].
  - destruct (c =? c_bs).
    + apply total_bind; [apply total_parse_escape|]. intros []; [apply total_ret|apply total_fail].
    + destruct (c <? 128); [apply total_ret|apply total_fail].
  - intros b s2 A2. assert (A := adv_trans _ _ _ _ A1 A2).
    apply wp_bind, wp_consume_char with T; [apply A| |intros _; now apply wp_fail].
    intros r H A3. assert (A' := adv_trans _ _ _ _ A A3).
    eapply wp_bind_ok; [reflexivity|]. apply wp_bind. apply wp_slice_before.
    + eapply suf_trans; [|exact B]. apply A'.
    + intros p _. apply wp_total with T; [apply total_try_from_int|apply A'| |];
      intros; eapply adv_trans; eassumption.
  - intros e s2 A2. eapply adv_trans; eassumption.
Qed.

Lemma integer_body_total t neg base backup : total_from backup (integer_body t neg base backup).
Proof.
  intros T s I B. unfold integer_body. cbv zeta.
  eapply wp_bind_ok; [apply next_while_eq|]. eapply wp_bind_ok; [reflexivity|].
  apply wp_bind. eapply wp_of_slice; [apply bdrop_takewhile|].
  assert (GO : wp (int_parse t neg base) (fun _ s' => adv T s s') (fun _ s' => adv T s s') s)
    by (apply total_int_parse; assumption).
  destruct (dropwhile is_int_char (rest s)) as [|c r] eqn:D; [exact GO|].
  destruct ((c =? 105) || (c =? 117)); [|exact GO].
  eapply wp_bind_ok; [reflexivity|]. eapply wp_bind_ok; [apply advance_while|].
  assert (A1 : adv T s (moved (dropwhile is_int_char (rest s)) s)).
  { apply adv_moved; [assumption|apply suf_dropwhile]. }
  set (s1 := moved _ s) in *. apply wp_bind.
  apply wp_total with T; [apply total_int_suffix|apply A1| |].
  2:{ intros e s2 A2. eapply adv_trans; eassumption. }
  intros sfx s2 A2. assert (A := adv_trans _ _ _ _ A1 A2).
  assert (A3 := adv_rewind T s s2 I A). set (s3 := set_cursor _ s2) in *.
  destruct sfx as [k|].
  - eapply wp_bind_ok; [reflexivity|]. apply wp_bind, wp_modify. fold s3.
    assert (SB : suf (rest s2) backup) by (eapply suf_trans; [apply A|exact B]).
    apply wp_try. apply wp_total with T; [apply total_parse_integer|apply A3| |].
    + intros z s4 A4. apply wp_bind. apply wp_total with T; [apply total_skip_identifier|apply A4| |].
      * intros _ s5 A5. apply wp_bind, wp_bind, wp_slice_before; [assumption|]. intros p _.
        apply wp_ret. apply wp_total with T; [apply total_try_from_int|apply A5| |];
        intros; eauto using adv_trans.
      * intros e s5 A5. eauto using adv_trans.
    + intros e s4 A4. assert (A34 := adv_trans _ _ _ _ A3 A4).
      assert (F1 : wp ((slice_before backup (rest s2);;; ret tt);;; @fail (ik * Z) e)
                     (fun _ s' => adv T s s') (fun _ s' => adv T s s') s4).
      { apply wp_bind, wp_bind, wp_slice_before; [assumption|]. intros p _. apply wp_ret, wp_fail, A34. }
      assert (F2 : wp (skip_identifier;;; (slice_before backup (rest s2);;; ret tt);;; @fail (ik * Z) e)
                     (fun _ s' => adv T s s') (fun _ s' => adv T s s') s4).
      { apply wp_bind. apply wp_total with T; [apply total_skip_identifier|apply A34| |].
        - intros _ s5 A5. apply wp_bind, wp_bind, wp_slice_before; [assumption|]. intros p _.
          apply wp_ret, wp_fail. eapply adv_trans; eassumption.
        - intros e' s5 A5. eapply adv_trans; eassumption. }
      destruct e; first [exact F1|exact F2].
  - apply wp_bind, wp_modify. fold s3.
    apply wp_total with T; [apply total_int_parse|apply A3| |]; intros; eapply adv_trans; eassumption.
Qed.

Lemma total_integer t : total (integer t).
Proof.
  intros T s I. unfold integer. cbv zeta. eapply wp_bind_ok; [reflexivity|].
  apply wp_bind. apply wp_total with T; [apply total_peek_char_or_eof|assumption| |auto].
  intros c s1 A1.
  assert (SIGNED : forall neg s2, adv T s s2 ->
    wp (b <- consume_str s_0b ;;
        if b then integer_body t neg 2 (rest s) else
        o <- consume_str s_0o ;;
        if o then integer_body t neg 8 (rest s) else
        x <- consume_str s_0x ;;
        if x then integer_body t neg 16 (rest s) else
        integer_body t neg 10 (rest s))
       (fun _ s' => adv T s s') (fun _ s' => adv T s s') s2).
  { intros neg s2 A2.
    assert (BODY : forall base s3, adv T s s3 ->
      wp (integer_body t neg base (rest s)) (fun _ s' => adv T s s') (fun _ s' => adv T s s') s3).
    { intros base s3 A3. eapply wp_conseq; [apply (integer_body_total t neg base (rest s) T s3)| |];
      [apply A3|apply A3| |]; cbn; intros; eapply adv_trans; eassumption. }
    apply wp_bind, wp_consume_str with T; [apply A2| |]; intros.
    { apply BODY. eapply adv_trans; eassumption. }
    apply wp_bind, wp_consume_str with T; [apply A2| |]; intros.
    { apply BODY. eapply adv_trans; eassumption. }
    apply wp_bind, wp_consume_str with T; [apply A2| |]; intros.
    { apply BODY. eapply adv_trans; eassumption. }
    now apply BODY. }
  destruct (c =? c_plus).
  { apply wp_bind. apply wp_total with T; [apply total_skip_next_char|apply A1| |]; intros.
    - apply SIGNED. eapply adv_trans; eassumption.
    - eapply adv_trans; eassumption. }
  destruct (c =? c_minus).
  { apply wp_bind. apply wp_total with T; [apply total_skip_next_char|apply A1| |]; intros.
    - apply SIGNED. eapply adv_trans; eassumption.
    - eapply adv_trans; eassumption. }
  destruct (c =? c_b); [|now apply SIGNED].
  apply wp_bind, wp_consume_str with T; [apply A1| |]; intros.
  - assert (A2 : adv T s (moved r s1)) by (eapply adv_trans; eassumption).
    eapply wp_conseq; [apply (byte_literal_total t (rest s) T (moved r s1))| |];
      [apply A2|apply A2| |]; cbn; intros; eapply adv_trans; eassumption.
  - now apply SIGNED.
Qed.

Lemma total_float_parse t w : total (float_parse t w).
Proof.
  unfold float_parse. destruct t; [destruct (f_read _ _)|destruct (f_read _ _); [destruct (_ =? _)|]];
    (apply total_ret || apply total_fail).
Qed.
Lemma total_try_from_float t p : total (try_from_parsed_float t p).
Proof.
  unfold try_from_parsed_float. destruct t; [destruct (fk_eqb _ _)|];
    (apply total_ret || apply total_fail).
Qed.

Lemma total_float_lits t l : total (float_lits t l).
Proof.
  induction l as [|[[w v32] v64] l IH]; cbn [float_lits]; [apply total_ret|].
  intros T s I. apply wp_bind, wp_consume_ident with T; [assumption| |].
  { intros r H A. apply wp_bind.
    apply wp_total with T; [apply total_float_parse|apply A| |]; intros;
      [apply wp_ret|]; eapply adv_trans; eassumption. }
  eapply wp_bind_ok; [reflexivity|].
  destruct (strip_prefix w (rest s)) as [sfx|] eqn:S; [|now apply IH].
  apply strip_prefix_some in S. cbv zeta.
  assert (WS : forall k v (next : M (option (fk * N))),
    wp next (fun _ s' => adv T s s') (fun _ s' => adv T s s') s ->
    wp (match strip_prefix (match k with F32 => s_f32 | F64 => s_f64 end) sfx with
        | Some post =>
            if next_is_xid_continue post then next
            else
              of_slice (btake (blen w + 3) (rest s)) ;;;
              advance_bytes (blen w + 3) ;;;
              x <- try_from_parsed_float t (k, v) ;;
              ret (Some x)
        | None => next
        end) (fun _ s' => adv T s s') (fun _ s' => adv T s s') s).
  { intros k v next N. destruct (strip_prefix _ sfx) as [post|] eqn:P; [|exact N].
    destruct (next_is_xid_continue post); [exact N|].
    apply strip_prefix_some in P.
    assert (Hs : exists p, rest s = p ++ post /\ blen p = (blen w + 3)%nat).
    { eexists. split; [rewrite S, P, app_assoc; reflexivity|].
      rewrite blen_app. destruct k; reflexivity. }
    destruct Hs as (p & Hs & Hp).
    apply wp_bind. eapply wp_of_slice; [rewrite Hs, <- Hp; apply btake_app|].
    eapply wp_bind_ok; [eapply advance_ok with (p := p) (r := post); assumption|].
    assert (A : adv T s (moved post s)).
    { apply adv_moved; [assumption|]. rewrite Hs. apply suf_app. }
    apply wp_bind. apply wp_total with T; [apply total_try_from_float|apply A| |]; intros;
      [apply wp_ret|]; eapply adv_trans; eassumption. }
  apply (WS F32), (WS F64), IH, I.
Qed.

Lemma dotdot_split s : exists a b, s = a ++ b /\ dotdot_len s = blen a.
Proof.
  unfold dotdot_len. destruct (find_str s_dotdot s) as [[a b]|] eqn:F.
  - apply find_str_some in F as [-> _]. eauto.
  - exists s, []. now rewrite app_nil_r.
Qed.
Lemma float_chars_index i allow s j : float_chars i allow s = inr j ->
  exists a b, s = a ++ b /\ j = (i + blen a)%nat.
Proof.
  revert i allow. induction s as [|c s IH]; intros i allow H; cbn [float_chars] in H; [discriminate|].
  destruct (c =? c_us) eqn:U.
  - destruct allow.
    + apply IH in H as (a & b & -> & ->). exists (c :: a), b. cbn [blen app]. split; [reflexivity|lia].
    + injection H as <-. exists [], (c :: s). cbn [blen app]. split; [reflexivity|lia].
  - destruct (float_chars _ _ s) eqn:F; [discriminate|]. injection H as ->.
    apply IH in F as (a & b & -> & ->). exists (c :: a), b. cbn [blen app]. split; [reflexivity|lia].
Qed.

Lemma total_float t : total (float t).
Proof.
  intros T s0 I0. unfold float. apply wp_bind.
  apply wp_total with T; [apply total_float_lits|assumption| |auto].
  intros l s A0. assert (I := adv_inv _ _ _ A0).
  apply wp_conseq with (Q := fun _ s' => adv T s s') (R := fun _ s' => adv T s s');
    [|intros; eapply adv_trans; eassumption|intros; eapply adv_trans; eassumption].
  destruct l as [x|]; [apply wp_ret; now apply adv_refl|].
  eapply wp_bind_ok; [apply next_while_eq|]. eapply wp_bind_ok; [reflexivity|].
  apply wp_bind. eapply wp_of_slice; [apply btake_takewhile|]. cbv zeta.
  destruct (dotdot_split (takewhile is_float_char (rest s))) as (a & b & Hab & ->).
  assert (Hs : exists q, rest s = a ++ q).
  { exists (b ++ dropwhile is_float_char (rest s)). rewrite app_assoc, <- Hab. apply take_drop_while. }
  destruct Hs as [q Hs].
  destruct (Nat.eqb (blen a) 0); [apply wp_fail; now apply adv_refl|].
  eapply wp_bind_ok; [reflexivity|].
  destruct (match rest s with [] => false | d :: _ => d =? c_us end); [apply wp_fail; now apply adv_refl|].
  apply wp_bind. eapply wp_of_slice; [rewrite Hs; apply btake_app|].
  destruct (float_chars 0 false a) as [f|i] eqn:F.
  2:{ apply float_chars_index in F as (x & y & -> & ->). cbn [Nat.add].
      eapply wp_bind_ok; [eapply advance_ok with (p := x) (r := y ++ q);
                          [rewrite Hs; now rewrite app_assoc|reflexivity]|].
      apply wp_fail. apply adv_moved; [assumption|]. rewrite Hs, <- app_assoc. apply suf_app. }
  apply wp_bind. eapply wp_of_slice; [rewrite Hs; apply bdrop_app|].
  assert (A1 : adv T s (moved q s)).
  { apply adv_moved; [assumption|]. rewrite Hs. apply suf_app. }
  assert (PLAIN : forall s', adv T s s' -> rest s' = rest s ->
    wp (v <- float_parse t f ;; advance_bytes (blen a) ;;; ret v)
       (fun _ s' => adv T s s') (fun _ s' => adv T s s') s').
  { intros s' A' R'. apply wp_bind.
    unfold float_parse. destruct t as [k|].
    - destruct (f_read k f); [|now apply wp_fail].
      apply wp_ret. eapply wp_bind_ok; [eapply advance_ok with (p := a) (r := q); [congruence|reflexivity]|].
      apply wp_ret. eapply adv_trans; [exact A'|]. apply adv_moved; [apply A'|].
      rewrite R', Hs. apply suf_app.
    - destruct (f_read F64 f) as [v|]; [|now apply wp_fail].
      destruct (v =? _); apply wp_ret;
      (eapply wp_bind_ok; [eapply advance_ok with (p := a) (r := q); [congruence|reflexivity]|];
       apply wp_ret; eapply adv_trans; [exact A'|]; apply adv_moved; [apply A'|];
       rewrite R', Hs; apply suf_app). }
  destruct q as [|c q]; [apply PLAIN; [now apply adv_refl|reflexivity]|].
  destruct (c =? 102); [|apply PLAIN; [now apply adv_refl|reflexivity]].
  eapply wp_bind_ok; [reflexivity|].
  eapply wp_bind_ok; [eapply advance_ok with (p := a); [exact Hs|reflexivity]|].
  assert (FIN : forall k s2, adv T s s2 ->
    wp (match f_read k f with
        | None => set_cursor_m (get_cursor s) ;;; fail EExpectedFloat
        | Some v =>
            after <- src ;;
            slice_before (rest s) after ;;;
            try_from_parsed_float t (k, v)
        end) (fun _ s' => adv T s s') (fun _ s' => adv T s s') s2).
  { intros k s2 A2. destruct (f_read k f) as [v|].
    - eapply wp_bind_ok; [reflexivity|]. apply wp_bind, wp_slice_before; [apply A2|].
      intros p _. apply wp_total with T; [apply total_try_from_float|apply A2| |];
      intros; eapply adv_trans; eassumption.
    - apply wp_bind, wp_modify, wp_fail. now apply adv_rewind. }
  apply wp_bind, wp_consume_ident with T; [apply A1| |].
  { intros r H A2. apply FIN. eapply adv_trans; eassumption. }
  apply wp_bind, wp_consume_ident with T; [apply A1| |].
  { intros r H A2. apply FIN. eapply adv_trans; eassumption. }
  apply wp_bind, wp_modify. apply PLAIN; [now apply adv_rewind|reflexivity].
Qed.

Lemma total_next_bytes_is_float : total next_bytes_is_float.
Proof.
  intros T s I. unfold next_bytes_is_float. eapply wp_bind_ok; [reflexivity|].
  destruct (rest s) as [|c r] eqn:Hs; [apply wp_ret; now apply adv_refl|]. cbv zeta.
  set (skip := if (c =? c_plus) || (c =? c_minus) then 1%nat else 0%nat).
  assert (Hk : exists a t, c :: r = a ++ t /\ blen a = skip).
  { subst skip. destruct ((c =? c_plus) || (c =? c_minus)) eqn:P.
    - exists [c], r. split; [reflexivity|]. apply orb_true_iff in P as [P|P]; apply N.eqb_eq in P as ->; reflexivity.
    - exists [], (c :: r). auto. }
  destruct Hk as (a & t & Hk & Ha). rewrite Hk in Hs.
  eapply wp_bind_ok; [apply next_while_from_eq with (a := a) (r := t); assumption|].
  eapply wp_bind_ok; [reflexivity|]. rewrite Hs, <- Ha.
  apply wp_bind. eapply wp_of_slice; [apply bdrop_app|].
  apply wp_bind. eapply wp_of_slice; [apply btake_takewhile|].
  eapply wp_bind_ok; [apply next_while_from_eq with (a := a) (r := t); [assumption|reflexivity]|].
  apply wp_ret. now apply adv_refl.
Qed.

Lemma total_any_number : total any_number.
Proof.
  unfold any_number.
  repeat (apply total_bind; [apply total_consume_ident|]; intros []; [apply total_ret|]).
  apply total_bind; [apply total_next_bytes_is_float|]. intros [].
  { apply total_bind; [apply total_float|]. intros; apply total_ret. }
  intros T s I. eapply wp_bind_ok; [reflexivity|]. apply wp_try.
  apply wp_total with T; [apply total_integer|assumption| |].
  { intros x s1 A1. now apply wp_ret. }
  intros ierr s1 A1. eapply wp_bind_ok; [reflexivity|]. apply wp_bind, wp_modify. cbv zeta.
  assert (A2 := adv_rewind T s s1 I A1). set (s2 := set_cursor _ s1) in *.
  assert (G : forall s3, adv T s s3 ->
    wp (set_cursor_m (get_cursor s1) ;;; @fail num ierr) (fun _ s' => adv T s s') (fun _ s' => adv T s s') s3).
  { intros s3 A3. apply wp_bind, wp_modify, wp_fail.
    destruct A3 as ((_ & _ & A3) & _ & K3). destruct A1 as ((B1 & B2 & B3) & S1 & K1).
    split; [|split; [exact S1|exact K3]]. unfold inv. cbn. auto. }
  apply wp_try. apply wp_total with T; [apply total_float|apply A2| |].
  - intros x s3 A3. assert (A4 := adv_trans _ _ _ _ A2 A3).
    eapply wp_bind_ok; [reflexivity|]. destruct (Nat.leb _ _); [now apply wp_ret|now apply G].
  - intros e s3 A3. apply G. eapply adv_trans; eassumption.
Qed.

Lemma total_parse_bool : total parse_bool.
Proof.
  unfold parse_bool.
  repeat (apply total_bind; [apply total_consume_ident|]; intros []; [apply total_ret|]). apply total_fail.
Qed.
Lemma total_parse_char : total parse_char.
Proof.
  unfold parse_char. apply total_bind; [apply total_expect_char|]. intros _.
  apply total_bind; [apply total_next_char|]. intros c.
  apply total_bind; [|intros d; apply total_bind; [apply total_expect_char|intros; apply total_ret]].
  destruct (c =? c_bs); [|apply total_ret].
  apply total_bind; [apply total_parse_escape|]. intros []; apply total_ret.
Qed.

(** ** Strings *)

(** a buffer and a length that can be skipped *)
Definition total_buf (m : M (bytes * nat)) : Prop := forall T s, inv T s ->
  wp m (fun p s' => adv T s s' /\ exists a r, rest s' = a ++ r /\ blen a = snd p)
       (fun _ s' => adv T s s') s.

Lemma escaped_loop_total fuel binary T s pre post acc : inv T s ->
  rest s = pre ++ c_bs :: post -> (length (rest s) < fuel)%nat ->
  wp (escaped_loop fuel binary (blen pre) acc)
     (fun p s' => adv T s s' /\ exists a r, rest s' = a ++ r /\ blen a = snd p)
     (fun _ s' => adv T s s') s.
Proof.
  revert s pre post acc. induction fuel as [|f IH]; intros s pre post acc I H L; [lia|].
  cbn [escaped_loop].
  eapply wp_bind_ok.
  { eapply advance_ok with (p := pre ++ [c_bs]) (r := post).
    - now rewrite <- app_assoc.
    - rewrite blen_app. reflexivity. }
  assert (A1 : adv T s (moved post s)).
  { apply adv_moved; [assumption|]. exists (pre ++ [c_bs]). now rewrite <- app_assoc. }
  apply wp_bind. apply wp_total with T; [apply total_parse_escape|apply A1| |].
  2:{ intros. eapply adv_trans; eassumption. }
  intros e s2 A2. assert (A := adv_trans _ _ _ _ A1 A2). cbv zeta.
  eapply wp_bind_ok; [reflexivity|].
  destruct (find_char _ (rest s2)) as [[pre' post']|] eqn:F; [|now apply wp_fail].
  apply find_char_some in F as (H2 & _ & c & b' & -> & Hc).
  destruct (c =? c_bs) eqn:C.
  - apply N.eqb_eq in C as ->. eapply wp_conseq; [apply IH with b'| |]; cbn.
    + apply A.
    + assumption.
    + destruct A2 as (_ & S2 & _). apply suf_length in S2. cbn in S2.
      rewrite H in L. rewrite app_length in L. cbn in L. unfold str, char in *. lia.
    + intros p s3 [A3 P3]. split; [eapply adv_trans; eassumption|assumption].
    + intros e' s3 A3. eapply adv_trans; eassumption.
  - apply wp_ret. split; [assumption|]. exists (pre' ++ [c]), b'. rewrite <- app_assoc.
    split; [assumption|]. rewrite blen_app. cbn.
    assert (c = c_dq) as -> by (apply orb_true_iff in Hc as [Hc|Hc]; lia). reflexivity.
Qed.
Lemma total_escaped_byte_buf b : total_buf (escaped_byte_buf b).
Proof.
  intros T s I. unfold escaped_byte_buf. eapply wp_bind_ok; [reflexivity|].
  destruct (find_char _ (rest s)) as [[pre post]|] eqn:F; [|apply wp_fail; now apply adv_refl].
  apply find_char_some in F as (H & _ & c & post' & -> & Hc). apply N.eqb_eq in Hc as ->.
  destruct (find_char _ pre) as [[pre' q]|] eqn:G.
  - apply find_char_some in G as (-> & _ & c & q' & -> & Hc). apply N.eqb_eq in Hc as ->.
    eapply escaped_loop_total; [assumption| |lia].
    rewrite H, <- app_assoc. reflexivity.
  - apply wp_ret. split; [now apply adv_refl|]. exists (pre ++ [c_dq]), post'.
    rewrite <- app_assoc. split; [assumption|]. rewrite blen_app. reflexivity.
Qed.
Lemma total_raw_byte_buf : total_buf raw_byte_buf.
Proof.
  intros T s I. unfold raw_byte_buf. eapply wp_bind_ok; [apply next_while_eq|].
  eapply wp_bind_ok; [reflexivity|]. apply wp_bind. eapply wp_of_slice; [apply btake_takewhile|].
  eapply wp_bind_ok; [apply advance_while|].
  assert (A1 : adv T s (moved (dropwhile (fun c => c =? c_hash) (rest s)) s)).
  { apply adv_moved; [assumption|apply suf_dropwhile]. }
  set (s1 := moved _ s) in *. apply wp_bind.
  apply wp_total with T; [apply total_expect_char|apply A1| |].
  2:{ intros. eapply adv_trans; eassumption. }
  intros _ s2 A2. assert (A := adv_trans _ _ _ _ A1 A2). eapply wp_bind_ok; [reflexivity|].
  destruct (find_str _ (rest s2)) as [[pre post]|] eqn:F; [|now apply wp_fail].
  apply find_str_some in F as (H & r & ->). apply wp_ret. split; [assumption|].
  eexists (pre ++ _), r. rewrite <- app_assoc. split; [exact H|].
  rewrite blen_app. cbn [blen snd]. change (len_utf8 c_dq) with 1%nat. lia.
Qed.
Lemma total_finish_string m : total_buf m -> total (finish_string m).
Proof.
  intros H T s I. unfold finish_string. apply wp_bind. eapply wp_conseq; [apply (H T s I)| |auto].
  intros [bs n] s1 [A (a & r & Hr & Hn)]. cbn in Hn |- *.
  destruct (from_utf8 bs); [|now apply wp_fail].
  eapply wp_bind_ok; [eapply advance_ok with (p := a) (r := r); assumption|].
  apply wp_ret. eapply adv_trans; [exact A|]. apply adv_moved; [apply A|]. rewrite Hr. apply suf_app.
Qed.
Lemma total_finish_bytes m : total_buf m -> total (finish_bytes m).
Proof.
  intros H T s I. unfold finish_bytes. apply wp_bind. eapply wp_conseq; [apply (H T s I)| |auto].
  intros [bs n] s1 [A (a & r & Hr & Hn)]. cbn in Hn |- *.
  eapply wp_bind_ok; [eapply advance_ok with (p := a) (r := r); assumption|].
  apply wp_ret. eapply adv_trans; [exact A|]. apply adv_moved; [apply A|]. rewrite Hr. apply suf_app.
Qed.
Lemma total_escaped_string : total escaped_string.
Proof. apply total_finish_string, total_escaped_byte_buf. Qed.
Lemma total_raw_string : total raw_string.
Proof. apply total_finish_string, total_raw_byte_buf. Qed.
Lemma total_parse_string : total parse_string.
Proof.
  unfold parse_string. apply total_bind; [apply total_consume_char|]. intros []; [apply total_escaped_string|].
  apply total_bind; [apply total_consume_char|]. intros []; [apply total_raw_string|apply total_fail].
Qed.
Lemma total_byte_string_no_base64 : total byte_string_no_base64.
Proof.
  unfold byte_string_no_base64. apply total_bind; [apply total_consume_str|].
  intros []; [apply total_finish_bytes, total_escaped_byte_buf|].
  apply total_bind; [apply total_consume_str|].
  intros []; [apply total_map_err, total_finish_bytes, total_raw_byte_buf|apply total_fail].
Qed.
Lemma total_base64_error {A} s : total (@base64_error A s).
Proof. unfold base64_error. destruct (try_decode_base64 s); apply total_fail. Qed.
Lemma total_byte_string : total byte_string.
Proof.
  unfold byte_string. apply total_bind; [apply total_consume_char|].
  intros []; [apply total_bind; [apply total_escaped_string|intros; apply total_base64_error]|].
  apply total_bind; [apply total_consume_char|].
  intros []; [apply total_bind; [apply total_raw_string|intros; apply total_base64_error]|].
  apply total_byte_string_no_base64.
Qed.

(** ** Look-ahead *)

Lemma total_attempt {A} stop (m : M A) : total m -> total (attempt stop m).
Proof.
  intros H T s I. unfold attempt. eapply wp_bind_ok; [reflexivity|]. apply wp_try.
  apply wp_total with T; [assumption|assumption| |].
  - intros a s1 A1. now apply wp_ret.
  - intros e s1 A1. destruct (stop e); [now apply wp_fail|]. apply wp_modify. now apply adv_rewind.
Qed.

Lemma braces_loop_total fuel braces T s : inv T s -> (length (rest s) < fuel)%nat ->
  wp (braces_loop fuel braces) (fun _ s' => adv T s s') (fun _ s' => adv T s s') s.
Proof.
  revert braces s; induction fuel as [|f IH]; intros braces s I L; [lia|].
  destruct braces as [|lower]; [apply wp_ret; now apply adv_refl|]. cbn [braces_loop].
  assert (PRE : total (skip_ws ;;; attempt (fun _ => false) parse_char ;;;
                       attempt unterminated parse_string ;;;
                       attempt unterminated byte_string_no_base64)).
  { repeat (apply total_bind; [first [apply total_skip_ws|apply total_attempt, total_parse_char
                               |apply total_attempt, total_parse_string]|intros _]).
    apply total_attempt, total_byte_string_no_base64. }
  assert (ASSOC : forall {B} (k : M B) Q R,
    wp ((skip_ws ;;; attempt (fun _ => false) parse_char ;;;
                       attempt unterminated parse_string ;;;
                       attempt unterminated byte_string_no_base64) ;;; k) Q R s ->
    wp (skip_ws ;;; attempt (fun _ => false) parse_char ;;;
                       attempt unterminated parse_string ;;;
                       attempt unterminated byte_string_no_base64 ;;; k) Q R s).
  { intros B k Q R. Transparent wp. unfold wp, bind. Opaque wp.
    destruct (skip_ws s) as [? s1|? s1| |]; auto.
    destruct (attempt _ parse_char s1) as [? s2|? s2| |]; auto.
    destruct (attempt _ parse_string s2) as [? s3|? s3| |]; auto. }
  apply ASSOC. apply wp_bind. apply wp_total with T; [exact PRE|assumption| |auto].
  intros _ s1 A1. apply wp_bind. apply wp_eats with T; [apply eats_next_char|apply A1| |].
  2:{ intros. eapply adv_trans; eassumption. }
  intros c s2 A2 L2. assert (A := adv_trans _ _ _ _ A1 A2).
  assert (L1 : (length (rest s1) <= length (rest s))%nat) by (apply suf_length, A1).
  assert (GO : forall b, wp (braces_loop f b) (fun _ s' => adv T s s') (fun _ s' => adv T s s') s2).
  { intros b. eapply wp_conseq; [apply IH; [apply A|lia]| |]; cbn; intros; eapply adv_trans; eassumption. }
  destruct (_ || _); [apply GO|]. destruct (_ || _); [apply GO|]. destruct (_ && _); [|apply GO].
  apply wp_bind. apply wp_total with T; [apply total_skip_ws|apply A| |].
  - intros _ s3 A3. eapply wp_bind_ok; [reflexivity|]. apply wp_ret. eapply adv_trans; eassumption.
  - intros. eapply adv_trans; eassumption.
Qed.

Lemma total_check_struct_type_inner u p : total (check_struct_type_inner u p).
Proof.
  unfold check_struct_type_inner. cbv zeta.
  assert (INV : total (if negb p then ret AnyTuple
     else r <- src ;; more <- braces_loop (S (length r)) 1 ;;
          ret (if more then NonNewtypeTuple else NewtypeTuple))).
  { destruct p; [|apply total_ret]. cbn [negb]. intros T s I. eapply wp_bind_ok; [reflexivity|].
    apply wp_bind. eapply wp_conseq; [apply braces_loop_total; [eassumption|lia]| |]; cbn; auto.
    }
  set (investigate := if negb p then _ else _) in *. clearbody investigate.
  match goal with |- total (if u then (b <- _ ;; if b then ?body else _) else _) =>
    assert (BODY : total body) end.
  { apply total_bind; [apply total_skip_ws|]. intros _.
    apply total_bind; [apply total_check_char|]. intros rp. destruct (u && rp); [apply total_ret|].
    apply total_bind; [apply total_skip_identifier|]. intros [id|]; [|assumption].
    apply total_bind; [apply total_skip_ws|]. intros _.
    apply total_bind; [apply total_peek_char|]. intros [c|]; [|assumption].
    destruct (c =? c_colon); [apply total_ret|]. destruct (c =? c_comma).
    - apply total_bind; [apply total_skip_next_char|]. intros _.
      apply total_bind; [apply total_skip_ws|]. intros _.
      apply total_bind; [apply total_check_char|]. intros b. apply total_ret.
    - destruct (c =? c_rp); [apply total_ret|assumption]. }
  destruct u; [|assumption]. apply total_bind; [apply total_consume_char|].
  intros []; [assumption|apply total_ret].
Qed.

(** the look-ahead leaves the cursor where it was *)
Lemma check_struct_type_total u p T s : inv T s ->
  wp (check_struct_type u p) (fun _ s' => adv T s s' /\ get_cursor s' = get_cursor s)
     (fun _ s' => adv T s s') s.
Proof.
  intros I. unfold check_struct_type. eapply wp_bind_ok; [reflexivity|]. apply wp_bind.
  apply wp_total with T; [apply total_check_struct_type_inner|assumption| |auto].
  intros t s1 A1. apply wp_bind, wp_modify, wp_ret. split; [now apply adv_rewind|reflexivity].
Qed.
Lemma total_check_struct_type u p : total (check_struct_type u p).
Proof. intros T s I. eapply wp_conseq; [apply check_struct_type_total, I| |]; cbn; tauto. Qed.

(** ** Attributes *)

Lemma extension_loop_total fuel acc T s : inv T s -> (length (rest s) < fuel)%nat ->
  wp (extension_loop fuel acc) (fun _ s' => adv T s s') (fun _ s' => adv T s s') s.
Proof.
  revert acc s; induction fuel as [|f IH]; intros acc s I L; [lia|]. cbn [extension_loop].
  apply wp_bind. apply wp_eats with T; [apply identifier_eats|assumption| |auto].
  intros id s1 A1 L1. destruct (exts_from_ident id) as [e|]; [|now apply wp_fail]. cbv zeta.
  apply wp_bind. apply wp_total with T; [apply total_comma|apply A1| |].
  2:{ intros. eapply adv_trans; eassumption. }
  intros c s2 A2. assert (A := adv_trans _ _ _ _ A1 A2).
  apply wp_bind. apply wp_total with T; [apply total_check_other_0|apply A| |].
  2:{ intros. eapply adv_trans; eassumption. }
  intros m s3 A3. assert (A' := adv_trans _ _ _ _ A A3).
  destruct (negb c && m); [now apply wp_fail|]. destruct (negb c || negb m); [now apply wp_ret|].
  eapply wp_conseq; [apply IH; [apply A'|]| |]; cbn.
  - assert (X1 := suf_length _ _ (proj1 (proj2 A2))). assert (X2 := suf_length _ _ (proj1 (proj2 A3))). lia.
  - intros; eapply adv_trans; eassumption.
  - intros; eapply adv_trans; eassumption.
Qed.
Lemma total_extension_list : total extension_list.
Proof.
  intros T s I. unfold extension_list. eapply wp_bind_ok; [reflexivity|].
  apply extension_loop_total; [assumption|lia].
Qed.

Lemma total_attribute : total attribute.
Proof.
  unfold attribute. apply total_bind; [apply total_check_char|]. intros h.
  destruct h; cbn [negb]; [|apply total_ret].
  apply total_bind; [apply total_consume_all|]. intros []; cbn [negb]; [|apply total_fail].
  apply total_bind; [apply total_skip_ws|]. intros _.
  apply total_bind; [apply total_consume_ident|]. intros [].
  - apply total_bind; [apply total_skip_ws|]. intros _.
    apply total_bind; [apply total_consume_str|]. intros []; cbn [negb]; [|apply total_fail].
    apply total_bind; [apply total_skip_ws|]. intros _.
    apply total_bind; [apply total_extension_list|]. intros e.
    apply total_bind; [apply total_skip_ws|]. intros _.
    apply total_bind; [apply total_consume_all|]. intros []; [apply total_ret|apply total_fail].
  - apply total_bind; [apply total_consume_ident|]. intros ty.
    apply total_bind; [destruct ty; [apply total_ret|apply total_consume_ident]|].
    intros []; [|apply total_fail].
    apply total_bind; [apply total_skip_ws|]. intros _.
    apply total_bind; [apply total_consume_str|]. intros []; cbn [negb]; [|apply total_fail].
    apply total_bind; [apply total_skip_ws|]. intros _.
    apply total_bind; [apply total_parse_string|]. intros _.
    apply total_bind; [apply total_skip_ws|]. intros _.
    apply total_bind; [apply total_consume_str|]. intros []; [apply total_ret|apply total_fail].
Qed.

(** an attribute found is a character consumed *)
Lemma attribute_total T s : inv T s ->
  wp attribute (fun a s' => adv T s s' /\ (a <> AttrNone -> (length (rest s') < length (rest s))%nat))
     (fun _ s' => adv T s s') s.
Proof.
  intros I. destruct (rest s) as [|c r] eqn:Hs.
  { eapply wp_ok; [unfold attribute, bind, check_char; rewrite Hs; reflexivity|].
    split; [now apply adv_refl|congruence]. }
  destruct (c =? c_hash) eqn:C.
  2:{ eapply wp_ok; [unfold attribute, bind, check_char; rewrite Hs, C; reflexivity|].
      split; [now apply adv_refl|congruence]. }
  apply N.eqb_eq in C as ->.
  assert (P := total_attribute). unfold attribute in *.
  eapply wp_bind_ok; [unfold check_char; rewrite Hs; reflexivity|]. cbn [N.eqb Pos.eqb negb].
  apply wp_conseq with (Q := fun _ s' => adv T s s' /\ (length (rest s') < length (rest s))%nat)
                       (R := fun _ s' => adv T s s').
  2:{ intros a s' [A L]. split; [assumption|]. intros _. now rewrite Hs in L. }
  2:{ auto. }
  match goal with |- wp (b <- consume_all ?l ;; @?k b) _ _ _ =>
    assert (K : forall b, total (k b)) end.
  { intros []; cbn [negb]; [|apply total_fail].
    apply total_bind; [apply total_skip_ws|]. intros _.
    apply total_bind; [apply total_consume_ident|]. intros [].
    - apply total_bind; [apply total_skip_ws|]. intros _.
      apply total_bind; [apply total_consume_str|]. intros []; cbn [negb]; [|apply total_fail].
      apply total_bind; [apply total_skip_ws|]. intros _.
      apply total_bind; [apply total_extension_list|]. intros e.
      apply total_bind; [apply total_skip_ws|]. intros _.
      apply total_bind; [apply total_consume_all|]. intros []; [apply total_ret|apply total_fail].
    - apply total_bind; [apply total_consume_ident|]. intros ty.
      apply total_bind; [destruct ty; [apply total_ret|apply total_consume_ident]|].
      intros []; [|apply total_fail].
      apply total_bind; [apply total_skip_ws|]. intros _.
      apply total_bind; [apply total_consume_str|]. intros []; cbn [negb]; [|apply total_fail].
      apply total_bind; [apply total_skip_ws|]. intros _.
      apply total_bind; [apply total_parse_string|]. intros _.
      apply total_bind; [apply total_skip_ws|]. intros _.
      apply total_bind; [apply total_consume_str|]. intros []; [apply total_ret|apply total_fail]. }
  apply wp_bind. apply wp_conseq with
    (Q := fun _ s' => adv T s s' /\ (length (rest s') < length (rest s))%nat)
    (R := fun _ s' => adv T s s'); [|intros b s1 [A1 L1]|auto].
  - cbn [consume_all]. apply wp_bind, wp_bind, wp_consume_str with T; [assumption| |].
    2:{ rewrite Hs. discriminate. }
    intros r' H A1. injection (eq_trans (eq_sym Hs) H) as <-.
    apply wp_total with T; [|apply A1| |].
    + apply total_bind; [apply total_skip_ws|]. intros; apply total_ret.
    + intros b s2 A2. assert (A := adv_trans _ _ _ _ A1 A2).
      assert (L2 : (length (rest s2) < length (rest s))%nat).
      { assert (X1 := suf_length _ _ (proj1 (proj2 A2))). rewrite Hs. cbn in *. lia. }
      apply wp_total with T; [|apply A| |].
      * apply total_bind; [apply (total_consume_all [[33]; [c_lb]])|]. intros; apply total_ret.
      * intros ? s3 A3. split; [eapply adv_trans; eassumption|].
        assert (X1 := suf_length _ _ (proj1 (proj2 A3))). lia.
      * intros; eapply adv_trans; eassumption.
    + intros; eapply adv_trans; eassumption.
  - apply wp_total with T; [apply K|apply A1| |].
    + intros a s2 A2. split; [eapply adv_trans; eassumption|].
      assert (X1 := suf_length _ _ (proj1 (proj2 A2))). lia.
    + intros; eapply adv_trans; eassumption.
Qed.

(** Parser::new moves forward; the extensions may grow *)
Definition adv_ext (T : str) (s s' : st) : Prop :=
  inv T s' /\ suf (rest s') (rest s) /\ nt s' = nt s /\ lim s' = lim s /\ last_id s' = last_id s.
Lemma adv_adv_ext T s s' : adv T s s' -> adv_ext T s s'.
Proof. intros (A & B & C & D & F & G). unfold adv_ext. auto. Qed.
Lemma adv_ext_trans T a b c : adv_ext T a b -> adv_ext T b c -> adv_ext T a c.
Proof.
  intros (A & B & C & D & F) (A' & B' & C' & D' & F'). unfold adv_ext.
  split; [assumption|]. split; [eapply suf_trans; eassumption|]. intuition congruence.
Qed.

Lemma attr_loop_total fuel T s : inv T s -> (length (rest s) < fuel)%nat ->
  wp (attr_loop fuel) (fun _ s' => adv_ext T s s') (fun _ s' => adv_ext T s s') s.
Proof.
  revert s; induction fuel as [|f IH]; intros s I L; [lia|]. cbn [attr_loop].
  apply wp_bind. eapply wp_conseq; [apply attribute_total, I| |]; cbn.
  2:{ intros. now apply adv_adv_ext. }
  intros a s1 [A1 L1].
  assert (GO : forall s2, inv T s2 -> rest s2 = rest s1 -> adv_ext T s s2 -> a <> AttrNone ->
    wp (skip_ws ;;; attr_loop f) (fun _ s' => adv_ext T s s') (fun _ s' => adv_ext T s s') s2).
  { intros s2 I2 R2 A2 NA. apply wp_bind. apply wp_total with T; [apply total_skip_ws|assumption| |].
    - intros _ s3 A3. eapply wp_conseq; [apply IH; [apply A3|]| |]; cbn.
      + assert (X1 := suf_length _ _ (proj1 (proj2 A3))). specialize (L1 NA). rewrite R2 in X1. lia.
      + intros _ s4 A4. eapply adv_ext_trans; [|eassumption].
        eapply adv_ext_trans; [eassumption|]. now apply adv_adv_ext.
      + intros _ s4 A4. eapply adv_ext_trans; [|eassumption].
        eapply adv_ext_trans; [eassumption|]. now apply adv_adv_ext.
    - intros e s3 A3. eapply adv_ext_trans; [eassumption|]. now apply adv_adv_ext. }
  assert (X1 := adv_adv_ext _ _ _ A1).
  destruct a as [|e|].
  - now apply wp_ret.
  - apply wp_bind, wp_modify. apply GO; [apply A1|reflexivity|exact X1|discriminate].
  - apply GO; [apply A1|reflexivity|exact X1|discriminate].
Qed.

Lemma parser_new_total T s : inv T s ->
  wp parser_new (fun _ s' => adv_ext T s s') (fun _ s' => adv_ext T s s') s.
Proof.
  intros I. unfold parser_new. apply wp_bind.
  apply wp_total with T; [apply total_skip_ws|assumption| |].
  - intros _ s1 A1. eapply wp_bind_ok; [reflexivity|].
    eapply wp_conseq; [apply attr_loop_total; [apply A1|lia]| |]; cbn;
    intros; (eapply adv_ext_trans; [apply adv_adv_ext|]; eassumption).
  - intros. now apply adv_adv_ext.
Qed.

Lemma inv_init text : inv text (init_state text).
Proof. unfold inv, init_state. cbn. repeat split; apply suf_refl. Qed.

End WithEnv.
