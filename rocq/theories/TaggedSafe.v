(** Reading an internally tagged enum is safe: it neither panics nor runs out
    of fuel. *)
From Coq Require Import String Ascii NArith ZArith Lia Bool List.
From Verif Require Import Base Facts Value Data Parse De Span Wp EnvOk LexSafe DeSafe IntoRust Content ContentSafe Tagged.
Import ListNotations.
Open Scope N_scope.
Open Scope list_scope.
Open Scope m_scope.

Section WithEnv.
Context {E : Env} {X : XidOk E}.
Variable tag : str.
Variable variants : list (str * ivariant).
Variable T : str.
Notation ok s m := (wp m (fun _ s' => dok T s s') (fun _ s' => derr T s s') s).

Lemma total_variant_of s : total (variant_of variants s).
Proof. unfold variant_of. destruct (find _ _); [apply total_ret|apply total_fail]. Qed.
Lemma total_tag_value : total (tag_value variants).
Proof. apply total_bind; [apply total_parse_string|]. intros; apply total_variant_of. Qed.
Lemma gd_all' (P : option nat -> Prop) l : (forall l, P l) -> gd P l.
Proof. destruct l as [[]|]; cbn; auto. Qed.

Lemma tagged_loop_safe n l term key k : (forall l, safe T (at_ n false l) key) ->
  forall seen had s, inv T s -> at_ n false l s -> (length (rest s) + 1 <= k)%nat -> ok s (tagged_loop tag variants k term key seen had).
Proof.
  intros G. induction k as [|k IH]; intros seen had s I P L; [lia|].
  cbn [tagged_loop]. apply wp_bind.
  eapply wp_conseq; [apply (next_key_safe T n l term key had s (gd_all' _ l G) I P)| |auto]. cbn beta.
  intros [a|] s1 [D1 _]; [|now apply wp_ret].
  assert (P1 := at_dok _ _ _ _ _ _ P D1). assert (Y1 := dok_len _ _ _ D1).
  destruct (is_tag tag a).
  - destruct seen; [apply wp_fail; now apply dok_derr|].
    apply wp_bind. eapply wp_conseq; [apply (next_value_safe T n l (tag_value variants) s1); [apply gd_all'; intros; apply safe_total, total_tag_value|apply D1|exact P1]| |].
    2:{ cbn. intros. eapply dok_derr_trans; eassumption. }
    cbn beta. intros p s2 [D2 L2]. assert (D := dok_trans _ _ _ _ D1 D2).
    eapply wp_conseq; [apply (IH (Some (fst p)) (snd p) s2)| |]; cbn beta.
    + apply D2.
    + eapply at_dok; eassumption.
    + lia.
    + intros l' s3 D3. eapply dok_trans; eassumption.
    + intros e s3 D3. eapply dok_derr_trans; eassumption.
  - apply wp_bind. eapply wp_conseq; [apply (next_value_safe T n l content_value s1); [apply gd_all'; intros; apply safe_content_value|apply D1|exact P1]| |].
    2:{ cbn. intros. eapply dok_derr_trans; eassumption. }
    cbn beta. intros p s2 [D2 L2]. assert (D := dok_trans _ _ _ _ D1 D2).
    apply wp_bind. eapply wp_conseq; [apply (IH seen (snd p) s2)| |]; cbn beta.
    + apply D2.
    + eapply at_dok; eassumption.
    + lia.
    + intros l' s3 D3. apply wp_ret. eapply dok_trans; eassumption.
    + intros e s3 D3. eapply dok_derr_trans; eassumption.
Qed.
Lemma tagged_map_safe n l term key : (forall l, safe T (at_ n false l) key) -> safe T (at_ n false l) (tagged_map tag variants term key).
Proof.
  intros G s I P. unfold tagged_map. eapply wp_bind_ok; [reflexivity|].
  apply wp_step; [apply (tagged_loop_safe n l term key _ G None true s I P); lia|].
  intros q s' D. destruct (fst q); [apply wp_ret, dok_refl, D|apply wp_fail, derr_refl, D].
Qed.
Lemma tagged_seq_safe n l term : safe T (at_ n false l) (tagged_seq tag variants term).
Proof.
  intros s I P. unfold tagged_seq. eapply wp_bind_ok; [reflexivity|]. apply wp_bind.
  eapply wp_conseq; [apply (next_element_safe T n l term (s <- de_identifier ;; variant_of variants s) true s); [|exact I|exact P]| |auto].
  { apply gd_all'. intros l'. apply safe_bind; [apply safe_identifier|]. intros. apply safe_total, total_variant_of. }
  cbn beta. intros [[v|] c] s1 [D1 H1]; [|apply wp_fail; now apply dok_derr]. assert (Y := dok_len _ _ _ D1).
  apply wp_bind. eapply wp_conseq; [apply (seq_loop_safe T n l term content_value _ c s1)| |]; cbn beta.
  - apply gd_all'. intros. apply safe_content_value.
  - apply D1.
  - eapply at_dok; eassumption.
  - destruct c; lia.
  - intros l' s2 D2. apply wp_ret. eapply dok_trans; eassumption.
  - intros e s2 D2. eapply dok_derr_trans; eassumption.
Qed.
Lemma field_safe n l : safe T (at_ n false l) (k <- de_identifier ;; ret (XStr k)).
Proof. apply safe_bind; [apply safe_identifier|]. intros. apply safe_ret. Qed.
Lemma tuple_safe s : inv T s -> ok s (de_tuple (tagged_seq tag variants c_rp)).
Proof. intros I. apply wp_de_tuple with (length (rest s)); [assumption|destruct (nt s); lia|]. intros _. apply gd_all. intros. apply tagged_seq_safe. Qed.
Lemma named_safe s : inv T s -> ok s (struct_after_name [] (tagged_map tag variants c_rp (k <- de_identifier ;; ret (XStr k)))).
Proof. intros I. apply wp_struct_after_name with (length (rest s)); [assumption|destruct (nt s); lia|]. intros _. apply gd_all. intros. apply tagged_map_safe, field_safe. Qed.
Lemma then_safe {A B} s s1 (m : M A) (k : A -> M B) : dok T s s1 -> ok s1 m -> (forall a s2, inv T s2 -> ok s2 (k a)) -> 
  wp (bind m k) (fun _ s' => dok T s s') (fun _ s' => derr T s s') s1.
Proof.
  intros D H K. eapply wp_conseq with (Q := fun _ s' => dok T s1 s') (R := fun _ s' => derr T s1 s').
  - apply wp_step; [exact H|]. intros a s2 D2. apply K, D2.
  - cbn. intros. eapply dok_trans; eassumption.
  - cbn. intros. eapply dok_derr_trans; eassumption.
Qed.
Lemma tagged_struct_safe s : inv T s -> ok s (tagged_struct tag variants).
Proof.
  intros I. unfold tagged_struct. apply wp_step; [apply wp_token; [assumption|apply total_check_struct_type]|].
  intros t s1 D1. destruct t; try (apply tuple_safe; apply D1); [apply named_safe; apply D1|apply wp_fail, derr_refl, D1].
Qed.
Lemma untaggable_safe {A} s m : inv T s -> ok s m -> ok s (untaggable (A := A) tag m).
Proof. intros I H. unfold untaggable. apply wp_step; [exact H|]. intros x s' D. destruct x; apply wp_fail, derr_refl, D. Qed.
Lemma refused {A} s s1 e : adv T s s1 -> wp (@fail A e) (fun _ s' => dok T s s') (fun _ s' => derr T s s') s1.
Proof. intros A1. apply wp_fail. now apply adv_derr. Qed.
Lemma tagged_main_safe s : inv T s -> nt s = false -> ok s (tagged_main tag variants).
Proof.
  intros I N. unfold tagged_main.
  apply wp_bind, wp_consume_ident with T; [assumption|intros; now apply refused|].
  apply wp_bind, wp_consume_ident with T; [assumption|intros; now apply refused|].
  eapply wp_bind_ok; [apply check_ident_eq|].
  destruct (ident_at s_Some (rest s)) eqn:SM.
  { apply wp_step; [|intros; apply wp_fail, derr_refl; apply H]. apply wp_de_option with (b := true); [assumption|discriminate| |].
    - intros n L'. apply gd_all. intros l'. apply safe_fail.
    - rewrite SM. discriminate. }
  apply wp_bind, wp_consume_ident with T; [assumption|intros; now apply refused|].
  apply wp_bind, wp_consume_str with T; [assumption|intros; now apply refused|].
  intros _.
  assert (FR : forall r k b, rest s = r -> adv T s (moved k s) ->
     wp (untaggable tag (float_range_or_value b)) (fun (_ : str * ivariant * value) s' => dok T s s') (fun _ s' => derr T s s') (moved k s)).
  { intros r k b _ A1. eapply wp_conseq; [apply untaggable_safe; [apply A1|apply (wp_token T); [apply A1|apply total_float_range]]| |]; cbn;
      intros; [eapply dok_trans|eapply dok_derr_trans]; try eassumption; now apply adv_dok. }
  apply wp_bind, wp_consume_ident with T; [assumption|intros; apply wp_bind, wp_ret; eapply FR; eauto|].
  apply wp_bind, wp_consume_ident with T; [assumption|intros; eapply FR; eauto|].
  apply wp_bind, wp_consume_ident with T; [assumption|intros; eapply FR; eauto|].
  apply wp_bind, wp_consume_ident with T; [assumption|intros; apply wp_bind, wp_ret; eapply FR; eauto|].
  apply wp_bind, wp_consume_ident with T; [assumption|intros; eapply FR; eauto|].
  apply wp_bind, wp_consume_ident with T; [assumption|intros; eapply FR; eauto|].
  apply wp_bind. eapply wp_conseq; [apply skip_identifier_total, I| |]; [|cbn; tauto]. cbn beta.
  intros id s1 (A1 & L1 & N1). destruct id as [id|].
  { apply then_safe; [now apply adv_dok|apply wp_token; [apply A1|apply total_skip_ws]|]. intros _ s2 I2. now apply tagged_struct_safe. }
  rewrite (N1 eq_refl) in *. clear s1 A1 L1 N1.
  apply wp_step; [apply wp_token; [assumption|apply total_peek_char_or_eof]|]. intros c s1 D1. assert (I1 := proj1 D1).
  destruct (c =? c_lp); [now apply tagged_struct_safe|].
  destruct (c =? c_lb).
  { apply wp_de_seq with (length (rest s1)); [assumption|lia|]. intros _. apply gd_all. intros. apply tagged_seq_safe. }
  destruct (c =? c_lc).
  { apply wp_de_map with (length (rest s1)); [assumption|lia|]. intros _. apply gd_all. intros. apply tagged_map_safe. intros. apply safe_content_value. }
  destruct (_ || (c =? c_b)).
  { apply untaggable_safe; [assumption|]. apply (safe_any_number_or_bytes T (length (rest s1)) true (lim s1)); [assumption|].
    split; [lia|]. split; [discriminate|reflexivity]. }
  destruct (_ || _).
  { apply wp_token; [assumption|]. apply total_bind; [apply total_parse_string|intros; apply total_fail]. }
  destruct (c =? c_sq).
  { apply wp_token; [assumption|]. apply total_bind; [apply total_parse_char|intros; apply total_fail]. }
  apply wp_fail. now apply derr_refl.
Qed.
Theorem tagged_any_safe P : safe T P (tagged_any tag variants).
Proof.
  intros s I _. unfold tagged_any. apply wp_bind, wp_get. destruct (nt s) eqn:N; [|now apply tagged_main_safe].
  eapply wp_bind_ok; [reflexivity|].
  destruct (match rest s with [] => false | d :: _ => d =? c_rp end).
  { apply wp_step; [apply (safe_de_unit T (fun _ => True)); auto|]. intros _ s' D. apply wp_fail, derr_refl, D. }
  apply wp_step; [apply wp_token; [assumption|apply total_check_struct_type]|]. intros t s1 D1. assert (I1 := proj1 D1).
  assert (REST : ok s1 (modify (set_nt false) ;;; tagged_main tag variants)).
  { apply wp_step_set; [now apply dok_nt|]. apply tagged_main_safe; [apply I1|reflexivity]. }
  destruct t; try exact REST; try now apply tuple_safe. now apply named_safe.
Qed.
End WithEnv.
