(** Reading into serde's buffer is safe: it neither panics nor runs out of
    fuel. *)
From Coq Require Import String Ascii NArith ZArith Lia Bool List.
From Verif Require Import Base Facts Value Data Parse De Span Wp EnvOk LexSafe DeSafe IntoRust Content.
Import ListNotations.
Open Scope N_scope.
Open Scope list_scope.
Open Scope m_scope.

Section WithEnv.
Context {E : Env} {X : XidOk E}.

Lemma derr_trans T s s1 s2 : derr T s s1 -> derr T s1 s2 -> derr T s s2.
Proof.
  intros (_ & S1 & E1) (I2 & S2 & E2). split; [exact I2|]. split; [|congruence]. destruct S1 as [p ->], S2 as [q ->]. exists (p ++ q). now rewrite app_assoc.
Qed.
Section Con.
Variables (T : str) (con : bool -> M value).
Notation ok s m := (wp m (fun _ s' => dok T s s') (fun _ s' => derr T s s') s).

(** an identifier has been read *)
Lemma variant_safe s n newtype id : inv T s -> nt s = false -> (length (rest s) <= n)%nat ->
  (forall nw l, safe T (at_ n false l) (con nw)) -> ok s (content_struct con newtype (Some id)).
Proof.
  intros I N L H. unfold content_struct. apply wp_bind.
  apply wp_total with T; [apply total_check_struct_type|assumption| |intros; now apply adv_derr].
  intros t s1 A1. assert (D1 := adv_dok _ _ _ A1). assert (Y := dok_len _ _ _ D1).
  assert (N1 : nt s1 = false) by (rewrite <- N; apply A1).
  eapply wp_conseq with (Q := fun _ s' => dok T s1 s') (R := fun _ s' => derr T s1 s').
  2:{ cbn. intros. eapply dok_trans; eassumption. }
  2:{ cbn. intros. eapply dok_derr_trans; eassumption. }
  assert (V : ok s1 (skip_ws ;;; v <- con true ;; ret (XMap [(XStr id, v)]))).
  { apply wp_step; [apply wp_token; [apply D1|apply total_skip_ws]|]. intros _ s2 D2. assert (Y2 := dok_len _ _ _ D2).
    apply wp_step; [apply (H true (lim s2)); [apply D2|]|intros v s3 D3; apply wp_ret, dok_refl, D3].
    split; [lia|]. split; [|reflexivity]. intros _. now apply D2. }
  destruct t; try exact V. apply wp_ret, dok_refl, D1.
Qed.
(** an opening parenthesis is next *)
Lemma paren_safe s n r newtype : inv T s -> nt s = false -> rest s = c_lp :: r -> (length r <= n)%nat ->
  (forall nw l, safe T (at_ n false l) (con nw)) -> ok s (content_struct con newtype None).
Proof.
  intros I N Hs L H. unfold content_struct. apply wp_bind.
  eapply wp_conseq; [apply (check_struct_type_total true newtype T s I)| |cbn; intros; now apply adv_derr]. cbn beta.
  intros t s1 [A1 C]. assert (D1 := adv_dok _ _ _ A1).
  assert (N1 : nt s1 = false) by (rewrite <- N; apply A1).
  assert (R1 : rest s1 = c_lp :: r) by (unfold get_cursor in C; congruence).
  eapply wp_conseq with (Q := fun _ s' => dok T s1 s') (R := fun _ s' => derr T s1 s').
  2:{ cbn. intros. eapply dok_trans; eassumption. }
  2:{ cbn. intros. eapply dok_derr_trans; eassumption. }
  assert (L1 : (length (rest s1) <= (if nt s1 then n else S n))%nat) by (rewrite N1, R1; cbn [length]; apply le_n_S, L).
  assert (TUP : ok s1 (de_tuple (l <- seq_all c_rp (con false) ;; ret (XSeq l)))).
  { apply wp_de_tuple with n; [apply D1|exact L1|]. intros _. apply gd_all. intros. now apply any_seq_body_safe. }
  destruct t; try exact TUP.
  - destruct newtype; [|exact TUP].
    eapply wp_bind_ok; [rewrite consume_char_eq, R1, N.eqb_refl; reflexivity|].
    assert (D2 : dok T s1 (moved r s1)) by (apply adv_dok, adv_moved; [apply D1|rewrite R1; apply suf_cons]).
    eapply wp_conseq with (Q := fun _ s' => dok T (moved r s1) s') (R := fun _ s' => derr T (moved r s1) s').
    2:{ cbn. intros. eapply dok_trans; eassumption. }
    2:{ cbn. intros. eapply dok_derr_trans; eassumption. }
    apply wp_step; [apply wp_token; [apply D2|apply total_skip_ws]|]. intros _ s3 D3. assert (Y3 := dok_len _ _ _ D3).
    apply wp_try. eapply wp_conseq; [apply (H false (lim s3)); [apply D3|]| |].
    + split; [eapply Nat.le_trans; [exact Y3|exact L]|]. split; [|reflexivity]. intros _. apply D3. exact N1.
    + cbn. intros v s4 D4.
      eapply wp_conseq with (Q := fun _ s' => dok T s4 s') (R := fun _ s' => derr T s4 s').
      2:{ cbn. intros. eapply dok_trans; eassumption. }
      2:{ cbn. intros. eapply dok_derr_trans; eassumption. }
      apply wp_token; [apply D4|]. apply total_bind; [apply total_skip_ws|]. intros _.
      apply total_bind; [apply total_consume_char|]. intros _. apply total_ret.
    + cbn. intros e s4 D4.
      apply wp_bind, wp_total with T; [apply total_skip_ws|apply D4| |].
      2:{ intros e' s5 A5. eapply derr_trans; [exact D4|now apply adv_derr]. }
      intros _ s5 A5. apply wp_bind, wp_total with T; [apply total_consume_char|apply A5| |].
      2:{ intros e' s6 A6. eapply derr_trans; [exact D4|]. eapply derr_trans; [apply adv_derr, A5|now apply adv_derr]. }
      intros _ s6 A6. apply wp_fail. eapply derr_trans; [exact D4|]. eapply derr_trans; [apply adv_derr, A5|now apply adv_derr].
  - apply wp_struct_after_name with n; [apply D1|exact L1|]. intros _. apply gd_all. intros.
    now apply any_map_body_safe.
  - apply wp_ret, dok_refl, D1.
Qed.

Lemma content_main_safe s newtype : inv T s -> nt s = false ->
  (forall n b l nw, (n < length (rest s))%nat -> safe T (at_ n b l) (con nw)) ->
  ok s (content_main con newtype).
Proof.
  intros I N H. unfold content_main. apply wp_step.
  2:{ intros x s' D. destruct (wide x); [apply wp_fail, derr_refl, D|apply wp_ret, dok_refl, D]. }
  unfold content_tree.
  (* the keywords *)
  apply wp_bind, wp_consume_ident with T; [assumption|intros; apply wp_ret; now apply adv_dok|].
  apply wp_bind, wp_consume_ident with T; [assumption|intros; apply wp_ret; now apply adv_dok|].
  eapply wp_bind_ok; [apply check_ident_eq|].
  destruct (ident_at s_Some (rest s)) eqn:SM.
  { destruct (consume_ident_taken _ _ SM) as (r & Hr & _).
    assert (L : (length r < length (rest s))%nat) by (rewrite Hr, app_length; cbn; lia).
    apply wp_de_option with (b := true); [assumption|discriminate| |].
    - intros n L'. apply gd_all. intros l'. apply safe_map_ret. now apply H.
    - rewrite SM. discriminate. }
  apply wp_bind, wp_consume_ident with T; [assumption|intros; apply wp_ret; now apply adv_dok|].
  apply wp_bind, wp_consume_str with T; [assumption|intros; apply wp_ret; now apply adv_dok|].
  intros _.
  assert (FR : forall r k b, rest s = r -> adv T s (moved k s) ->
     wp (float_range_or_value b) (fun _ s' => dok T s s') (fun _ s' => derr T s s') (moved k s)).
  { intros r k b _ A1. eapply wp_conseq; [apply (wp_token T); [apply A1|apply total_float_range]| |]; cbn;
      intros; [eapply dok_trans|eapply dok_derr_trans]; try eassumption; now apply adv_dok. }
  apply wp_bind, wp_consume_ident with T; [assumption|intros; apply wp_bind, wp_ret; eapply FR; eauto|].
  apply wp_bind, wp_consume_ident with T; [assumption|intros; eapply FR; eauto|].
  apply wp_bind, wp_consume_ident with T; [assumption|intros; eapply FR; eauto|].
  apply wp_bind, wp_consume_ident with T; [assumption|intros; apply wp_bind, wp_ret; eapply FR; eauto|].
  apply wp_bind, wp_consume_ident with T; [assumption|intros; eapply FR; eauto|].
  apply wp_bind, wp_consume_ident with T; [assumption|intros; eapply FR; eauto|].
  apply wp_bind. eapply wp_conseq; [apply skip_identifier_total, I| |]; [|cbn; tauto]. cbn.
  intros id s1 (A1 & L1 & N1). destruct id as [id|].
  { assert (L : (length (rest s1) < length (rest s))%nat) by (apply L1; discriminate).
    assert (D1 := adv_dok _ _ _ A1).
    eapply wp_conseq with (Q := fun _ s' => dok T s1 s') (R := fun _ s' => derr T s1 s').
    2:{ cbn. intros. eapply dok_trans; eassumption. }
    2:{ cbn. intros. eapply dok_derr_trans; eassumption. }
    apply wp_step; [apply wp_token; [apply D1|apply total_skip_ws]|]. intros _ s2 D2.
    assert (Y := dok_len _ _ _ D2).
    apply variant_safe with (n := length (rest s1)); [apply D2|apply D2, D1, N|exact Y|].
    intros nw l. now apply H. }
  rewrite (N1 eq_refl) in *. clear s1 A1 L1 N1.
  destruct (rest s) as [|c r] eqn:Hs.
  { apply wp_bind. eapply wp_err; [unfold peek_char_or_eof; now rewrite Hs|]. now apply derr_refl. }
  eapply wp_bind_ok; [unfold peek_char_or_eof; now rewrite Hs|].
  assert (HL : forall nw l, safe T (at_ (length r) false l) (con nw)) by (intros; apply H; cbn; lia).
  destruct (c =? c_lp) eqn:CP.
  { apply N.eqb_eq in CP. subst c. apply paren_safe with (length r) r; auto. }
  destruct (c =? c_lb).
  { apply wp_de_seq with (length r); [assumption|rewrite Hs; cbn; lia|].
    intros _. apply gd_all. intros. now apply any_seq_body_safe. }
  destruct (c =? c_lc).
  { apply wp_de_map with (length r); [assumption|rewrite Hs; cbn; lia|].
    intros _. apply gd_all. intros. apply safe_map_ret, map_all_safe; now apply gd_all. }
  destruct (_ || (c =? c_b)).
  { apply (safe_any_number_or_bytes T (length (rest s)) (nt s) (lim s)); [assumption|].
    unfold at_. intuition. }
  destruct (_ || _).
  { apply wp_token; [assumption|]. apply total_bind; [apply total_parse_string|intros; apply total_ret]. }
  destruct (c =? c_sq).
  { apply wp_token; [assumption|]. apply total_bind; [apply total_parse_char|intros; apply total_ret]. }
  apply wp_fail. now apply derr_refl.
Qed.
End Con.

Lemma de_content_safe f : forall T n (b : bool) l nw, (2 * n + (if b then 1 else 0) < f)%nat ->
  safe T (at_ n b l) (de_content f nw).
Proof.
  induction f as [|f IH]; intros T n b l nw L; [lia|].
  intros s I (P1 & P2 & P3). cbn [de_content]. apply wp_bind, wp_get. destruct (nt s) eqn:N.
  - assert (b = true) by (destruct b; [reflexivity|now specialize (P2 eq_refl)]). subst b.
    assert (HS : forall l, safe T (at_ n false l) (de_content f false)) by (intros; apply IH; lia).
    eapply wp_bind_ok; [reflexivity|].
    destruct (match rest s with [] => false | d :: _ => d =? c_rp end).
    { apply wp_step; [apply (safe_de_unit T (fun _ => True)); auto|].
      intros _ s' D. apply wp_ret, dok_refl, D. }
    apply wp_bind. apply wp_total with T; [apply total_check_struct_type|assumption| |intros; now apply adv_derr].
    intros t s1 A1. assert (D1 := adv_dok _ _ _ A1). assert (Y := dok_len _ _ _ D1).
    assert (N1 : nt s1 = true) by (rewrite <- N; apply A1).
    eapply wp_conseq with (Q := fun _ s' => dok T s1 s') (R := fun _ s' => derr T s1 s').
    2:{ cbn. intros. eapply dok_trans; eassumption. }
    2:{ cbn. intros. eapply dok_derr_trans; eassumption. }
    assert (TUP : wp (de_tuple (l <- seq_all c_rp (de_content f false) ;; ret (XSeq l)))
                     (fun _ s' => dok T s1 s') (fun _ s' => derr T s1 s') s1).
    { apply wp_de_tuple with n; [apply D1|rewrite N1; lia|]. intros _. apply gd_all. intros.
      now apply any_seq_body_safe. }
    assert (REST : wp (modify (set_nt false) ;;; content_main (de_content f) nw)
                     (fun _ s' => dok T s1 s') (fun _ s' => derr T s1 s') s1).
    { apply wp_step_set; [apply dok_nt, D1|]. apply content_main_safe; [apply D1|reflexivity|].
      intros n' b' l' nw' L'. apply IH. cbn in L'. destruct b'; lia. }
    destruct t; try exact TUP; try exact REST.
    apply wp_struct_after_name with n; [apply D1|rewrite N1; lia|]. intros _. apply gd_all. intros.
    now apply any_map_body_safe.
  - apply content_main_safe; auto. intros n' b' l' nw' L'. apply IH. destruct b, b'; lia.
Qed.

Lemma safe_content_value T P : safe T P content_value.
Proof.
  intros s I _. unfold content_value. eapply wp_bind_ok; [reflexivity|].
  apply (de_content_safe _ T (length (rest s)) true (lim s)); [lia|assumption|].
  split; [lia|]. split; [discriminate|reflexivity].
Qed.
End WithEnv.
