(** What the deserializer accepts: every text from which a value is read is in
    the grammar of [Accept], and its nesting is within the recursion limit. *)
From Coq Require Import String Ascii NArith ZArith Lia Bool List.
From Coq Require Import ZifyBool ZifyNat ZifyN.
From Verif Require Import Base Facts Value Data Parse De Wp EnvOk LexSafe DeSafe Layout LexWs Lit LexRead Inv LexSound Repr Accept Keep.
Import ListNotations.
Open Scope N_scope.
Open Scope list_scope.
Open Scope m_scope.

Section Sound.
Context {E : Env} {X : XidOk E}.

(** the lexer function [m] reads [t] as [a] *)
Definition lexes {A} (m : M A) (a : A) (t : str) : Prop :=
  exists T s s', inv T s /\ m s = Ok a s' /\ rest s = t ++ rest s'.
Lemma lexes_by {A} (m : M A) a t (R : str -> Prop) :
  (forall T s s', inv T s -> m s = Ok a s' -> exists u, rest s = u ++ rest s' /\ R u) -> lexes m a t -> R t.
Proof.
  intros H (T & s & s' & I & Q & R'). destruct (H T s s' I Q) as (u & Q2 & HR). rewrite R' in Q2. apply app_inv_tail in Q2. now subst.
Qed.
Lemma lexes_string v t : lexes parse_string v t -> string_lit t v.
Proof. apply (lexes_by _ _ _ (fun u => string_lit u v)). intros T s s' I H. eapply parse_string_sound; eauto. Qed.
Lemma lexes_char v t : lexes parse_char v t -> char_lit t v.
Proof. apply (lexes_by _ _ _ (fun u => char_lit u v)). intros T s s' I H. eapply parse_char_sound; eauto. Qed.
Lemma lexes_bytes v t : lexes byte_string v t -> bytes_lit t v.
Proof. apply (lexes_by _ _ _ (fun u => bytes_lit u v)). intros T s s' I H. eapply byte_string_sound; eauto. Qed.
Lemma lexes_integer k k' z t : lexes (integer (Some k)) (k', z) t -> in_range k z = true /\ int_text k z t.
Proof.
  intros L. assert (K : k' = k /\ in_range k z = true).
  { destruct L as (T & s & s' & I & Q & R'). apply integer_sound with (T := T) in Q as (IR & KT & _); [|assumption].
    assert (k' = k) by now apply KT. subst k'. auto. }
  destruct K as [-> IR]. split; [assumption|]. revert L. apply lexes_by.
  intros T s s' I H. eapply integer_sound with (T := T) in H as (_ & _ & HU); eauto.
Qed.
Lemma lexes_float k k' b t : lexes (float (Some k)) (k', b) t -> float_text (Some k) k b t.
Proof.
  intros L. assert (FT : float_text (Some k) k' b t).
  { revert L. apply lexes_by. intros T s s' I H. eapply float_sound; eauto. }
  assert (K : k' = k) by (inversion FT; subst; repeat match goal with H : float_of _ _ _ _ |- _ => destruct H | H : asked _ _ |- _ => specialize (H k eq_refl) end; auto).
  now subst k'.
Qed.
Lemma float_range_sound T n s x s' : inv T s -> float_range_or_value n s = Ok x s' ->
  exists t, rest s = t ++ rest s' /\ forall tn, num_lit n tn -> atom x (tn ++ t).
Proof.
  intros I H. unfold float_range_or_value in H. apply bind_ok in H as (i & s1 & H1 & H).
  apply consume_str_ok with (T := T) in H1 as (A1 & Q1); [|exact I]. destruct i.
  { apply bind_ok in H as (b & s2 & H2 & H). apply any_number_sound with (T := T) in H2 as (tb & Q2 & NB); [|apply A1].
    apply ret_ok in H as [-> ->]. exists (s_dotdoteq ++ tb). split; [rewrite Q1, Q2; flat; reflexivity|].
    intros tn NN. apply at_range; auto. }
  subst s1. apply bind_ok in H as (i & s1 & H1 & H). apply consume_str_ok with (T := T) in H1 as (A2 & Q1); [|exact I]. destruct i.
  2:{ apply ret_ok in H as [-> ->]. subst s1. exists []. split; [reflexivity|]. intros tn NN. rewrite app_nil_r. now apply at_number. }
  apply bind_ok in H as (r & s2 & H2 & H). apply src_ok in H2 as [-> ->]. destruct (num_start (rest s1)).
  - apply bind_ok in H as (b & s2 & H2 & H). apply any_number_sound with (T := T) in H2 as (tb & Q2 & NB); [|apply A2].
    apply ret_ok in H as [-> ->]. exists (s_dotdot ++ tb). split; [rewrite Q1, Q2; flat; reflexivity|].
    intros tn NN. apply at_range; auto.
  - apply ret_ok in H as [-> ->]. exists s_dotdot. split; [exact Q1|]. intros tn NN. now apply at_range_from.
Qed.
Lemma any_number_or_bytes_sound T s x s' : inv T s -> any_number_or_bytes s = Ok x s' ->
  exists t, rest s = t ++ rest s' /\ atom x t.
Proof.
  intros I H. unfold any_number_or_bytes in H. apply bind_ok in H as (r & s1 & H1 & H). apply src_ok in H1 as [-> ->].
  destruct (starts_with [c_b] (rest s) && negb (starts_with s_bsq (rest s))) eqn:B.
  { apply andb_prop in B as [B _]. apply bind_ok in H as (b & s2 & H2 & H). apply ret_ok in H as [-> ->].
    unfold de_bytes in H2. apply bind_ok in H2 as (c & s3 & H3 & H2). unfold check_char in H3. injection H3 as Q <-.
    destruct c.
    - exfalso. destruct (rest s) as [|d r]; [discriminate|]. apply N.eqb_eq in Q. subst d. discriminate.
    - apply byte_string_sound in H2 as (t & Q2 & BL). exists t. split; [assumption|]. now apply at_bytes. }
  apply bind_ok in H as (i & s1 & H1 & H).
  assert (CS : forall p i s1, check_str p s = Ok i s1 -> s1 = s /\
    if i then forall u s2, consume_str p s = Ok u s2 -> inv T s2 /\ rest s = p ++ rest s2 else True).
  { intros p i1 z Q. unfold check_str in Q. injection Q as Q <-. split; [reflexivity|]. destruct i1; [|exact Logic.I].
    intros u z' Q'. assert (Q1 := Q'). apply consume_str_ok with (T := T) in Q1 as (A1 & Q1); [|exact I]. split; [apply A1|].
    rewrite consume_str_eq in Q'. unfold starts_with in Q. destruct (strip_prefix p (rest s)); [|discriminate].
    injection Q' as <- <-. exact Q1. }
  apply CS in H1 as [-> C]. destruct i.
  { apply bind_ok in H as (u & s1 & H1 & H). apply C in H1 as [I1 Q1].
    apply bind_ok in H as (b & s2 & H2 & H). apply any_number_sound with (T := T) in H2 as (tb & Q2 & NB); [|apply I1].
    apply ret_ok in H as [-> ->]. exists (s_dotdoteq ++ tb). split; [rewrite Q1, Q2; flat; reflexivity|]. apply at_range_to; auto. }
  clear C. apply bind_ok in H as (i & s1 & H1 & H). apply CS in H1 as [-> C]. destruct i.
  - apply bind_ok in H as (af & s1 & H1 & H). apply of_slice_ok in H1 as [_ ->].
    destruct (match af with [] => false | c :: _ => is_number_start c (rest s) end);
      apply bind_ok in H as (u & s1 & H1 & H); apply C in H1 as [I1 Q1].
    + apply bind_ok in H as (b & s2 & H2 & H). apply any_number_sound with (T := T) in H2 as (tb & Q2 & NB); [|apply I1].
      apply ret_ok in H as [-> ->]. exists (s_dotdot ++ tb). split; [rewrite Q1, Q2; flat; reflexivity|]. apply at_range_to; auto.
    + apply ret_ok in H as [-> ->]. exists s_dotdot. split; [exact Q1|]. apply at_range_full.
  - apply bind_ok in H as (n & s1 & H1 & H). assert (A1 := total_ok _ _ _ _ _ total_any_number I H1).
    apply any_number_sound with (T := T) in H1 as (tn & Q1 & NN); [|exact I].
    apply float_range_sound with (T := T) in H as (t & Q2 & AT); [|apply A1]. exists (tn ++ t).
    split; [rewrite Q1, Q2; flat; reflexivity|]. now apply AT.
Qed.
Lemma lexes_atom x t : lexes any_number_or_bytes x t -> atom x t.
Proof. apply lexes_by. intros T s s' I H. eapply any_number_or_bytes_sound; eauto. Qed.

(** after the argument of a newtype: [comma], then the closing parenthesis *)
Lemma comma_tail T s c s' b s2 q : inv T s -> comma s = Ok c s' -> consume_char q s' = Ok b s2 -> b = true ->
  adv T s s2 /\ exists w, tail w /\ rest s = w ++ q :: rest s2.
Proof.
  intros I H H2 ->. apply comma_ok with (T := T) in H as (A1 & t & Q & C); [|exact I].
  apply consume_char_ok with (T := T) in H2 as (A2 & Q2); [|apply A1]. rewrite Q2 in *.
  split; [eapply adv_trans; eassumption|]. exists t. split; [|assumption]. destruct c.
  - destruct C as (w & w' & -> & L & L'). constructor; [assumption|]. now apply lay_cons in L'.
  - constructor. now apply lay_cons in C.
Qed.

(** ** Identifiers *)
Lemma takewhile_forall p s : forallb p (takewhile p s) = true.
Proof. induction s as [|c s IH]; [reflexivity|]. cbn. destruct (p c) eqn:P; [cbn; now rewrite P|reflexivity]. Qed.

Lemma identifier_ok T s n s' : inv T s -> identifier s = Ok n s' ->
  adv T s s' /\ exists t, rest s = t ++ rest s' /\ ident_lit t n.
Proof.
  intros I H. split; [eapply total_ok; [apply eats_total, identifier_eats|exact I|exact H]|].
  unfold identifier in H. apply bind_ok in H as (c & s1 & H1 & H).
  unfold peek_char_or_eof in H1. destruct (rest s) as [|c0 r] eqn:HR; [discriminate|]. injection H1 as -> <-.
  apply bind_ok in H as (r' & s2 & H2 & H). apply src_ok in H2 as [-> ->]. rewrite HR in H.
  destruct (is_ident_first_char c) eqn:FC; cbn [negb] in H.
  2:{ destruct (is_ident_raw_char c); [|now apply fail_ok in H].
      apply bind_ok in H as (n1 & s3 & H3 & H). apply bind_ok in H as (n2 & s4 & H4 & H). now apply fail_ok in H. }
  destruct (starts_string_literal (c :: r)); [now apply fail_ok in H|].
  apply bind_ok in H as (len & s3 & H3 & H).
  apply bind_ok in H as (r' & s4 & H4 & H). apply src_ok in H4 as [-> ->].
  apply bind_ok in H as (id & s4 & H4 & H). apply of_slice_ok in H4 as [B ->].
  apply bind_ok in H as (u & s4 & H4 & H). apply ret_ok in H as [-> ->].
  destruct (starts_with s_rh (c :: r)) eqn:SR.
  - apply starts_with_true in SR as [t Ht]. rewrite Ht in *.
    apply bind_ok in H3 as (k & s5 & H5 & H3). unfold get_cursor_m in H5. injection H5 as <- <-.
    apply bind_ok in H3 as (k' & s5 & H5 & H3). rewrite (advance_ok s 2 s_rh t) in H5 by (first [assumption|reflexivity]).
    injection H5 as _ <-.
    apply bind_ok in H3 as (o & s5 & H5 & H3). unfold peek_char in H5. injection H5 as <- <-. cbn [moved rest set_rest] in H3.
    destruct t as [|d t]; [cbn in H3; discriminate|].
    destruct (is_ident_raw_char d) eqn:RC; [|discriminate].
    rewrite next_while_eq in H3. injection H3 as <- <-. cbn [moved rest set_rest] in *.
    assert (B' := btake_takewhile is_ident_raw_char (d :: t)).
    assert (id = takewhile is_ident_raw_char (d :: t)) as ->.
    { cut (Some id = Some (takewhile is_ident_raw_char (d :: t))); [congruence|]. rewrite <- B'. symmetry. exact B. }
    clear B B'.
    change (advance_bytes (blen (takewhile is_ident_raw_char (rest (moved (d :: t) s)))) (moved (d :: t) s) = Ok u s4) in H4.
    rewrite advance_while in H4. injection H4 as _ <-.
    exists (s_rh ++ takewhile is_ident_raw_char (d :: t)). cbn [moved rest set_rest].
    split; [rewrite <- app_assoc, <- take_drop_while; reflexivity|].
    change s_rh with [c_r; c_hash]. apply id_raw; [cbn; now rewrite RC|apply takewhile_forall].
  - apply bind_ok in H3 as (std & s5 & H5 & H3).
    assert (ST : s5 = s /\ std = blen (c :: takewhile xid_continue r)).
    { destruct (c =? c_r) eqn:CR.
      - rewrite next_while_eq, HR in H5. injection H5 as <- <-. split; [reflexivity|]. cbn [takewhile].
        now rewrite (first_continue c FC).
      - apply bind_ok in H5 as (n1 & s6 & H6 & H5). rewrite (next_while_from_eq xid_continue s [c] r) in H6 by (first [exact HR|cbn; lia]).
        injection H6 as <- <-. apply ret_ok in H5 as [-> ->]. split; reflexivity. }
    destruct ST as [-> ->].
    apply bind_ok in H3 as (raw & s6 & H6 & H3). rewrite next_while_eq in H6. injection H6 as <- <-.
    destruct (Nat.ltb _ _).
    { apply bind_ok in H3 as (n1 & s6 & H6 & H3). now apply fail_ok in H3. }
    apply ret_ok in H3 as [-> ->].
    assert (Hs' : c :: r = (c :: takewhile xid_continue r) ++ dropwhile xid_continue r).
    { cbn. now rewrite <- take_drop_while. }
    rewrite HR, Hs', btake_app in B. injection B as <-.
    rewrite (advance_ok s _ (c :: takewhile xid_continue r) (dropwhile xid_continue r)) in H4 by (first [now rewrite HR|reflexivity]).
    injection H4 as _ <-. exists (c :: takewhile xid_continue r). cbn [moved rest set_rest].
    split; [exact Hs'|]. apply id_plain; [assumption|apply takewhile_forall].
Qed.

Lemma skip_identifier_ok T s o s' : inv T s -> skip_identifier s = Ok o s' ->
  adv T s s' /\ match o with
                | Some n => exists t, rest s = t ++ rest s' /\ ident_lit t n
                | None => s' = s
                end.
Proof.
  intros I H. split; [eapply total_ok; [apply total_skip_identifier|exact I|exact H]|].
  unfold skip_identifier in H. apply bind_ok in H as (r0 & s1 & H1 & H). apply src_ok in H1 as [-> ->].
  destruct (starts_string_literal (rest s)); [now apply ret_ok in H as [-> ->]|].
  destruct (starts_with s_rh (rest s)) eqn:SR.
  - apply starts_with_true in SR as [t Ht].
    apply bind_ok in H as (n & s1 & H1 & H).
    rewrite (next_while_from_eq is_ident_raw_char s s_rh t) in H1 by (first [assumption|reflexivity]). injection H1 as <- <-.
    destruct (Nat.ltb 0 _) eqn:LT; [|now apply ret_ok in H as [-> ->]].
    apply bind_ok in H as (t1 & s1 & H1 & H). apply of_slice_ok in H1 as [B1 ->].
    rewrite Ht in B1. change 2%nat with (blen s_rh) in B1. rewrite bdrop_app in B1. injection B1 as <-.
    apply bind_ok in H as (id & s1 & H1 & H). apply of_slice_ok in H1 as [B2 ->]. rewrite btake_takewhile in B2. injection B2 as <-.
    apply bind_ok in H as (u & s1 & H1 & H). apply ret_ok in H as [-> ->].
    rewrite (advance_ok s _ (s_rh ++ takewhile is_ident_raw_char t) (dropwhile is_ident_raw_char t)) in H1.
    2:{ now rewrite <- app_assoc, <- take_drop_while. }
    2:{ rewrite blen_app. reflexivity. }
    injection H1 as _ <-. exists (s_rh ++ takewhile is_ident_raw_char t). cbn [moved rest set_rest].
    split; [now rewrite <- app_assoc, <- take_drop_while|].
    change s_rh with [c_r; c_hash]. apply id_raw; [|apply takewhile_forall].
    intros Q. rewrite Q in LT. cbn in LT. discriminate.
  - destruct (rest s) as [|c r] eqn:HR; [now apply ret_ok in H as [-> ->]|].
    destruct (is_ident_first_char c) eqn:FC; [|now apply ret_ok in H as [-> ->]].
    apply bind_ok in H as (n & s1 & H1 & H).
    rewrite (next_while_from_eq xid_continue s [c] r) in H1 by (first [assumption|cbn; lia]). injection H1 as <- <-. cbv zeta in H.
    change (len_utf8 c + blen (takewhile xid_continue r))%nat with (blen (c :: takewhile xid_continue r)) in H.
    assert (Hs' : c :: r = (c :: takewhile xid_continue r) ++ dropwhile xid_continue r).
    { cbn. now rewrite <- take_drop_while. }
    apply bind_ok in H as (id & s1 & H1 & H). apply of_slice_ok in H1 as [B2 ->]. rewrite Hs', btake_app in B2. injection B2 as <-.
    apply bind_ok in H as (u & s1 & H1 & H). apply ret_ok in H as [-> ->].
    rewrite (advance_ok s _ (c :: takewhile xid_continue r) (dropwhile xid_continue r)) in H1 by (first [now rewrite HR|reflexivity]).
    injection H1 as _ <-. exists (c :: takewhile xid_continue r). cbn [moved rest set_rest].
    split; [exact Hs'|]. apply id_plain; [assumption|apply takewhile_forall].
Qed.

Lemma consume_struct_name_ok T name s b s' : inv T s -> consume_struct_name name s = Ok b s' ->
  adv T s s' /\ if b then exists t, rest s = t ++ rest s' /\ ident_lit t name
                else s' = s /\ x_explicit_struct_names (ext s) = false.
Proof.
  intros I H. split; [eapply total_ok; [apply total_consume_struct_name|exact I|exact H]|].
  unfold consume_struct_name in H. apply bind_ok in H as (c & s1 & H1 & H). rewrite check_ident_eq in H1. injection H1 as <- <-.
  destruct (ident_at [] (rest s)).
  - apply bind_ok in H as (x & s1 & H1 & H). apply get_ok in H1 as [-> ->].
    destruct (x_explicit_struct_names (ext s)) eqn:XE; [now apply fail_ok in H|]. apply ret_ok in H as [-> ->]. auto.
  - unfold try in H. destruct (identifier s) as [n s1|e1 s1| |] eqn:HI; try discriminate.
    + apply identifier_ok with (T := T) in HI as (A1 & t & Q & L); [|exact I].
      destruct name as [|c0 name]; [now apply fail_ok in H|].
      destruct (str_eqb n (c0 :: name)) eqn:SE; [|now apply fail_ok in H]. apply str_eqb_eq in SE. subst n.
      apply ret_ok in H as [-> ->]. eauto.
    + destruct e1; try (now apply fail_ok in H). destruct (str_eqb _ _); now apply fail_ok in H.
Qed.

(** ** Reading within a limit *)
Section Reads.
Variable e : exts.

(** from a state with the extensions [e] and [newtype_variant = b], [m] reads
    an [a] only from a text [t] with [R a t d] where [d] is within the limit,
    and possibly some layout after it *)
Definition reads_from {A} (P : st -> Prop) (b : bool) (m : M A) (R : A -> str -> nat -> Prop) : Prop :=
  keeps m /\ forall T s a s', inv T s -> P s -> ext s = e -> nt s = b -> m s = Ok a s' ->
    dok T s s' /\ exists t w d, rest s = t ++ w ++ rest s' /\ lay w (rest s') /\ R a t d /\ within d (lim s).
(** from anywhere, and only where layout has been skipped just now *)
Notation reads_in := (reads_from tracked).
Notation reads_el := (reads_from ready).

Lemma reads_in_el {A} b (m : M A) R : reads_in b m R -> reads_el b m R.
Proof. intros [K H]. split; [exact K|]. intros T s a s' I RD. apply H; [exact I|now apply ready_tracked]. Qed.
Lemma reads_in_weaken {A} P b (m : M A) (R R' : A -> str -> nat -> Prop) :
  (forall a t d, R a t d -> R' a t d) -> reads_from P b m R -> reads_from P b m R'.
Proof.
  intros W [K H]. split; [exact K|]. intros T s a s' I PS HE HN Q. destruct (H T s a s' I PS HE HN Q) as (D & t & w & d & ? & ? & ? & ?).
  split; [assumption|]. exists t, w, d. auto.
Qed.
Lemma reads_in_map {A B} P b (m : M A) (f : A -> B) (R : B -> str -> nat -> Prop) :
  reads_from P b m (fun a => R (f a)) -> reads_from P b (a <- m ;; ret (f a)) R.
Proof.
  intros [K H]. split; [apply keeps_bind; [exact K|intros; apply keeps_still; auto with still]|].
  intros T s a s' I PS HE HN Q. apply bind_ok in Q as (x & s1 & Q1 & Q). apply ret_ok in Q as [-> ->].
  apply (H T s x s1 I PS HE HN Q1).
Qed.
Lemma reads_in_map_err {A} P b f (m : M A) R : reads_from P b m R -> reads_from P b (map_err f m) R.
Proof. intros [K H]. split; [now apply keeps_map_err|]. intros T s a s' I PS HE HN Q. apply map_err_ok in Q. eauto. Qed.
Lemma reads_in_total {A} b (m : M A) : total m -> keeps m -> reads_in b m (fun a t d => lexes m a t /\ d = 0%nat).
Proof.
  intros H K. split; [exact K|]. intros T s a s' I _ HE HN Q. assert (A1 := total_ok _ _ _ _ _ H I Q). split; [now apply adv_dok|].
  destruct (adv_rest _ _ _ A1) as [t Ht]. exists t, [], 0%nat. split; [exact Ht|]. split; [apply lay_nil|].
  split; [|apply within_0]. split; [|reflexivity]. exists T, s, s'. auto.
Qed.
Ltac kp := first [eassumption|solve [auto with keeps]|apply keeps_still; intros; solve [auto with still]].
Ltac kq := cbv zeta; repeat (first [ks1|kp|apply keeps_de_tuple|apply keeps_struct|apply keeps_tuple|apply keeps_struct_body]; intros).

Lemma dok_ext T s s' : dok T s s' -> ext s' = ext s.
Proof. intros (_ & _ & D & _). exact D. Qed.
Lemma dok_lim T s s' : dok T s s' -> lim s' = lim s.
Proof. intros (_ & _ & _ & D & _). exact D. Qed.
Lemma dok_nt0 T s s' : dok T s s' -> nt s = false -> nt s' = false.
Proof. intros (_ & _ & _ & _ & D). exact D. Qed.
Lemma adv_ext T s s' : adv T s s' -> ext s' = ext s.
Proof. intros (_ & _ & D & _). exact D. Qed.
Lemma adv_nt T s s' : adv T s s' -> nt s' = nt s.
Proof. intros (_ & _ & _ & D & _). exact D. Qed.
Lemma adv_lim T s s' : adv T s s' -> lim s' = lim s.
Proof. intros (_ & _ & _ & _ & D & _). exact D. Qed.

Lemma guard_ok {A} (P : st -> Prop) r b (m : M A) R T s a s' : (forall l s, P s -> P (set_lim l s)) -> reads_from P b m R -> inv T s -> P s -> ext s = e -> nt s = b ->
  guard_with r m s = Ok a s' ->
  dok T s s' /\ exists t w d, rest s = t ++ w ++ rest s' /\ lay w (rest s') /\ R a t d /\ within (S d) (lim s).
Proof.
  intros PL [_ H] I PS HE HN Q. unfold guard_with in Q. destruct (lim s) as [[|l]|] eqn:HL; [discriminate| |].
  - destruct (m (set_lim (Some l) s)) as [x s1|x s1| |] eqn:Q1; try discriminate. injection Q as <- <-.
    destruct (H T (set_lim (Some l) s) x s1 I (PL _ _ PS) HE HN Q1) as ((D1 & D2 & D3 & D4 & D5) & t & w & d & Ht & Hw & HR & HD).
    cbn [lim set_lim] in D4. cbn [rest set_lim] in *. split.
    + unfold dok. cbn [rest set_lim ext lim nt]. rewrite D4, HL. auto.
    + exists t, w, d. cbn [lim set_lim] in HD. cbn in HD. cbn. repeat split; auto. lia.
  - destruct (H T s a s' I PS HE HN Q) as (D & t & w & d & Ht & Hw & HR & HD). split; [assumption|].
    exists t, w, d. rewrite HL in HD. auto.
Qed.

(** ** Loops *)
Lemma has_element_ok T term had s h s' : inv T s -> has_element term had s = Ok h s' ->
  adv T s s' /\ exists w, rest s = w ++ rest s' /\ lay w (rest s') /\
    (if h then had = true else exists r, rest s' = term :: r).
Proof.
  intros I H. split; [eapply total_ok; [apply total_has_element|exact I|exact H]|].
  apply bind_ok in H as (x & s1 & H1 & H). apply skip_ws_ok with (T := T) in H1 as (A1 & w & Q1 & L1); [|exact I].
  apply bind_ok in H as (t & s2 & H2 & H). apply check_char_ok in H2 as [-> C].
  exists w. destruct had.
  - apply ret_ok in H as [-> ->]. split; [exact Q1|]. split; [exact L1|]. destruct t; cbn [negb]; [now apply C|reflexivity].
  - destruct t; [|now apply fail_ok in H]. apply ret_ok in H as [-> ->]. auto.
Qed.

Lemma has_element_ready term had s h s' : tracked s -> has_element term had s = Ok h s' -> ready s'.
Proof.
  intros TR H. apply bind_ok in H as (x & s1 & H1 & H). apply skip_ws_ready in H1; [|exact TR].
  apply bind_ok in H as (t & s2 & H2 & H). apply check_char_ok in H2 as [-> _].
  destruct had; [|destruct t; [|now apply fail_ok in H]]; now apply ret_ok in H as [-> ->].
Qed.

(** what follows an element: layout, or a comma with layout around it *)
Definition after_item (c : bool) (t r : str) : Prop :=
  if c then exists w w', t = w ++ c_comma :: w' /\ layout w /\ lay w' r else lay t r.

Lemma lay_mid (t w r' r : str) : lay w (r' ++ r) -> lay w (r' ++ r).
Proof. auto. Qed.

(** put the layout a value leaves behind and that of [comma] together *)
Lemma after_value T c s w s1 s2 : inv T s1 -> comma s1 = Ok c s2 -> lay w (rest s1) -> rest s = w ++ rest s1 ->
  adv T s1 s2 /\ exists t, rest s = t ++ rest s2 /\ after_item c t (rest s2).
Proof.
  intros I H L Q. apply comma_ok with (T := T) in H as (A1 & t & Q1 & C); [|exact I]. split; [exact A1|].
  exists (w ++ t). rewrite Q, Q1. split; [now rewrite app_assoc|]. destruct c.
  - destruct C as (w1 & w2 & -> & L1 & L2). exists (w ++ w1), w2. rewrite <- app_assoc. split; [reflexivity|].
    split; [|assumption]. apply layout_app; [|assumption]. eapply lay_solid; [exact L|]. rewrite Q1.
    destruct w1; discriminate.
  - rewrite Q1 in L. now apply lay_app.
Qed.

Lemma next_element_ok {A} (elem : M A) R T term had s o c s' : reads_el false elem R ->
  inv T s -> tracked s -> ext s = e -> nt s = false -> next_element term elem had s = Ok (o, c) s' ->
  dok T s s' /\
  match o with
  | None => exists w r, layout w /\ rest s = w ++ rest s' /\ rest s' = term :: r
  | Some a => had = true /\ exists w t tl d, rest s = w ++ t ++ tl ++ rest s' /\ lay w (t ++ tl ++ rest s') /\
      R a t d /\ within (S d) (lim s) /\ after_item c tl (rest s')
  end.
Proof.
  intros HR I TR HE HN H. unfold next_element in H.
  apply bind_ok in H as (h & s1 & H1 & H). assert (RD := has_element_ready _ _ _ _ _ TR H1). apply has_element_ok with (T := T) in H1 as (A1 & w & Q1 & L1 & C1); [|exact I].
  destruct h.
  - apply bind_ok in H as (v & s2 & H2 & H).
    apply guard_ok with (P := ready) (b := false) (R := R) (T := T) in H2 as (D2 & t & w2 & d & Q2 & L2 & HV & HD); [|auto|assumption|apply A1|assumption| |].
    2:{ rewrite (adv_ext _ _ _ A1); assumption. }
    2:{ rewrite (adv_nt _ _ _ A1); assumption. }
    apply bind_ok in H as (c' & s3 & H3 & H). apply ret_ok in H as [H ->]. injection H as -> ->.
    destruct (after_value T c' (set_rest (w2 ++ rest s2) s) w2 s2 s3) as (A3 & tl & Q3 & C3); [apply D2|assumption|assumption|reflexivity|].
    cbn [rest set_rest] in Q3.
    split; [eapply dok_trans; [apply adv_dok; exact A1|]; eapply dok_trans; [exact D2|now apply adv_dok]|].
    split; [assumption|]. rewrite Q3 in Q2. rewrite Q2 in *.
    exists w, t, tl, d. split; [exact Q1|]. split; [exact L1|]. split; [assumption|].
    split; [|assumption]. now rewrite (adv_lim _ _ _ A1) in HD.
  - apply ret_ok in H as [H ->]. injection H as -> ->. split; [now apply adv_dok|].
    destruct C1 as [r Hr]. exists w, r. rewrite Hr in L1. split; [now apply lay_cons in L1|]. auto.
Qed.

(** the items read so far and one in front of them *)
Lemma sepd_more {A} (R : A -> str -> nat -> Prop) a t d c tl w l ts d' w' r term :
  R a t d -> after_item c tl (w ++ ts ++ w' ++ term :: r) -> (c = false -> l = []) ->
  layout w -> sepd R l ts d' -> layout w' ->
  exists t1 w1 d1, t ++ tl ++ w ++ ts ++ w' = t1 ++ w1 /\ sepd R (a :: l) t1 d1 /\ layout w1 /\
    (d1 <= Nat.max (S d) d')%nat.
Proof.
  intros HR HA HC HW HS HW'.
  assert (NE : w ++ ts ++ w' ++ term :: r <> []).
  { intros Q. apply app_eq_nil in Q as [_ Q]. apply app_eq_nil in Q as [_ Q]. now apply app_eq_nil in Q as [_ Q]. }
  destruct c; cbn in HA.
  - destruct HA as (w1 & w2 & -> & L1 & L2). apply lay_solid in L2; [|exact NE].
    inversion HS; subst.
    + exists (t ++ w1 ++ [c_comma]), (w2 ++ w ++ w'), (S d). split; [now rewrite <- !app_assoc|].
      split; [now apply se_comma|]. split; [repeat (apply layout_app; try assumption)|lia].
    + exists (t ++ w1 ++ c_comma :: (w2 ++ w) ++ ts), w', (Nat.max (S d) (S d0)).
      split; [flat; reflexivity|]. split; [|split; [assumption|lia]].
      apply se_cons; auto. now apply layout_app.
    + exists (t ++ w1 ++ c_comma :: (w2 ++ w) ++ (t0 ++ w0 ++ [c_comma])), w', (Nat.max (S d) (S d0)).
      split; [flat; reflexivity|]. split; [|split; [assumption|lia]].
      apply se_cons; auto. now apply layout_app.
    + exists (t ++ w1 ++ c_comma :: (w2 ++ w) ++ (t0 ++ w0 ++ c_comma :: w'0 ++ ts0)), w', (Nat.max (S d) (Nat.max (S d0) d'0)).
      split; [flat; reflexivity|]. split; [|split; [assumption|lia]].
      apply se_cons; auto. now apply layout_app.
  - rewrite (HC eq_refl) in *. inversion HS; subst. apply lay_solid in HA; [|exact NE].
    exists t, (tl ++ w ++ w'), (S d). split; [reflexivity|]. split; [now constructor|].
    split; [repeat (apply layout_app; try assumption)|lia].
Qed.

Lemma seq_loop_ok {A} (elem : M A) R T term n : reads_el false elem R ->
  forall had s l s', inv T s -> tracked s -> ext s = e -> nt s = false -> seq_loop n term elem had s = Ok l s' ->
  dok T s s' /\ (had = false -> l = []) /\
  exists w t w' d r, rest s = w ++ t ++ w' ++ rest s' /\ layout w /\ layout w' /\ sepd R l t d /\
    within d (lim s) /\ rest s' = term :: r.
Proof.
  intros HR. induction n as [|n IH]; [discriminate|]. intros had s l s' I TR HE HN H. cbn [seq_loop] in H.
  apply bind_ok in H as ([o c] & s1 & H1 & H).
  assert (TR1 := keeps_ok _ _ _ _ (keeps_next_element _ _ _ (proj1 HR)) TR H1).
  apply next_element_ok with (R := R) (T := T) in H1 as (D1 & C1); auto. destruct o as [a|].
  - apply bind_ok in H as (l' & s2 & H2 & H). apply ret_ok in H as [-> ->].
    destruct C1 as (-> & w & t & tl & d & Q1 & L1 & HV & HD & C1).
    apply IH in H2 as (D2 & C2 & w2 & t2 & w2' & d2 & r & Q2 & L2 & L2' & HS & HD2 & T2);
      [|apply D1|assumption|rewrite (dok_ext _ _ _ D1); assumption|now rewrite (dok_nt0 _ _ _ D1)].
    split; [eapply dok_trans; eassumption|]. split; [discriminate|].
    rewrite Q2, T2 in C1. destruct (sepd_more R a t d c tl w2 l' t2 d2 w2' r term HV C1 C2 L2 HS L2') as (t1 & w1 & d1 & QQ & HS1 & LL & DL).
    exists w, t1, w1, d1, r. split.
    { rewrite Q1, Q2. rewrite !(app_assoc t1), <- QQ. rewrite <- !app_assoc. reflexivity. }
    split.
    { eapply lay_solid; [exact L1|]. rewrite Q2, T2. intros Q. apply app_eq_nil in Q as [_ Q]. apply app_eq_nil in Q as [_ Q].
      apply app_eq_nil in Q as [_ Q]. apply app_eq_nil in Q as [_ Q]. now apply app_eq_nil in Q as [_ Q]. }
    split; [assumption|]. split; [assumption|]. split; [|assumption].
    eapply within_le; [exact DL|]. apply within_max; [assumption|]. now rewrite (dok_lim _ _ _ D1) in HD2.
  - apply ret_ok in H as [-> ->]. split; [assumption|]. split; [reflexivity|].
    destruct C1 as (w & r & L & Q & TT). exists w, [], [], 0%nat, r. cbn. split; [exact Q|]. split; [assumption|].
    split; [constructor|]. split; [constructor|]. split; [apply within_0|assumption].
Qed.
Lemma seq_all_ok {A} (elem : M A) R T term s l s' : reads_el false elem R ->
  inv T s -> tracked s -> ext s = e -> nt s = false -> seq_all term elem s = Ok l s' ->
  dok T s s' /\ exists w t w' d, rest s = w ++ t ++ w' ++ rest s' /\ layout w /\ layout w' /\ sepd R l t d /\
    within d (lim s).
Proof.
  intros HR I TR HE HN H. apply bind_ok in H as (r & s1 & H1 & H). apply src_ok in H1 as [-> ->].
  apply seq_loop_ok with (R := R) (T := T) in H as (D & _ & w & t & w' & d & r & ? & ? & ? & ? & ? & _); auto.
  split; [assumption|]. exists w, t, w', d. auto.
Qed.

Lemma tuple_elems_ok (rec : ty -> M val) R T Ts : (forall t, reads_el false (rec t) (R t)) ->
  forall i had s l s', inv T s -> tracked s -> ext s = e -> nt s = false -> tuple_elems (map rec Ts) i had s = Ok l s' ->
  dok T s s' /\ (had = false -> Ts = []) /\ length Ts = length l /\
  exists w t w' d, rest s = w ++ t ++ w' ++ rest s' /\ lay w (t ++ w' ++ rest s') /\ lay w' (rest s') /\
    sepd (fun p => R (fst p) (snd p)) (combine Ts l) t d /\ within d (lim s).
Proof.
  intros HR. induction Ts as [|t0 Ts IH]; intros i had s l s' I TR HE HN H; cbn [map tuple_elems] in H.
  - apply ret_ok in H as [-> ->]. split; [now apply dok_refl|]. split; [reflexivity|]. split; [reflexivity|].
    exists [], [], [], 0%nat. repeat split; try apply lay_nil; [constructor|apply within_0].
  - apply bind_ok in H as ([o c] & s1 & H1 & H).
    assert (TR1 := keeps_ok _ _ _ _ (keeps_next_element _ _ _ (proj1 (HR t0))) TR H1).
    apply next_element_ok with (R := R t0) (T := T) in H1 as (D1 & C1); auto. destruct o as [a|]; [|now apply fail_ok in H].
    apply bind_ok in H as (l' & s2 & H2 & H). apply ret_ok in H as [-> ->].
    destruct C1 as (-> & w & t & tl & d & Q1 & L1 & HV & HD & C1).
    apply IH in H2 as (D2 & C2 & LEN & w2 & t2 & w2' & d2 & Q2 & L2 & L2' & HS & HD2);
      [|apply D1|assumption|rewrite (dok_ext _ _ _ D1); assumption|now rewrite (dok_nt0 _ _ _ D1)].
    split; [eapply dok_trans; eassumption|]. split; [discriminate|]. split; [cbn; now rewrite LEN|].
    rewrite (dok_lim _ _ _ D1) in HD2. cbn [combine].
    set (P := fun p => R (fst p) (snd p)) in *.
    assert (HP : P (t0, a) t d) by exact HV.
    rewrite Q2 in *. destruct c; cbn in C1.
    + destruct C1 as (w1 & w1' & -> & M1 & M2).
      destruct Ts as [|t1 Ts]; [destruct l' as [|]; [|discriminate LEN]|destruct l' as [|a' l']; [discriminate LEN|]].
      * cbn [combine] in HS. inversion HS; subst.
        exists w, (t ++ w1 ++ [c_comma]), (w1' ++ w2 ++ w2'), (S d).
        split; [rewrite Q1; now rewrite <- !app_assoc|].
        split. { flat in L1. flat. exact L1. }
        split. { cbn [app] in *. rewrite app_assoc in M2. apply lay_app; [rewrite <- app_assoc; now rewrite <- app_assoc in M2|]. apply lay_app; assumption. }
        split; [now apply se_comma|assumption].
      * cbn [combine] in *.
        destruct t2 as [|c2 t2].
        { (* the following items are the empty text, which still are items *)
          destruct (w2' ++ rest s2) as [|x y] eqn:Q3.
          - apply app_eq_nil in Q3 as [-> QR].
            rewrite QR in *. cbn [app] in *.
            exists w, (t ++ w1 ++ c_comma :: [] ++ []), (w1' ++ w2), (Nat.max (S d) d2).
            split; [rewrite Q1; flat; reflexivity|]. split; [flat in L1; flat; exact L1|].
            split; [apply lay_app; [rewrite app_nil_r in *|]; assumption|].
            split; [apply se_cons; auto; constructor|]. now apply within_max.
          - exists w, (t ++ w1 ++ c_comma :: (w1' ++ w2) ++ []), w2', (Nat.max (S d) d2).
            rewrite Q3. split; [rewrite Q1; flat; reflexivity|].
            split; [flat in L1; flat; exact L1|].
            split; [assumption|]. cbn [app] in *.
            split; [|now apply within_max].
            apply se_cons; auto. apply layout_app; [eapply lay_solid; [exact M2|destruct w2; discriminate]|now apply lay_cons in L2]. }
        { exists w, (t ++ w1 ++ c_comma :: (w1' ++ w2) ++ c2 :: t2), w2', (Nat.max (S d) d2).
          split; [rewrite Q1; flat; reflexivity|].
          split; [flat in L1; flat; exact L1|].
          split; [assumption|]. split; [|now apply within_max].
          apply se_cons; auto. apply layout_app; [eapply lay_solid; [exact M2|destruct w2; discriminate]|now apply lay_cons in L2]. }
    + rewrite (C2 eq_refl) in *. destruct l' as [|]; [|discriminate LEN]. inversion HS; subst. cbn [app] in *.
      exists w, t, (tl ++ w2 ++ w2'), (S d).
      split; [rewrite Q1; now rewrite <- !app_assoc|]. split; [flat in L1; flat; exact L1|].
      split. { apply lay_app; [rewrite <- app_assoc; exact C1|]. now apply lay_app. }
      split; [now constructor|assumption].
Qed.

Lemma next_key_ok {A} (key : M A) R T term had s o s' : reads_el false key R ->
  inv T s -> tracked s -> ext s = e -> nt s = false -> next_key term key had s = Ok o s' ->
  dok T s s' /\
  match o with
  | None => exists w r, layout w /\ rest s = w ++ rest s' /\ rest s' = term :: r
  | Some a => had = true /\ exists w t wk d, rest s = w ++ t ++ wk ++ rest s' /\ lay w (t ++ wk ++ rest s') /\
      R a t d /\ within (S d) (lim s) /\ lay wk (rest s')
  end.
Proof.
  intros HR I TR HE HN H. unfold next_key in H.
  apply bind_ok in H as (h & s1 & H1 & H). assert (RD := has_element_ready _ _ _ _ _ TR H1). apply has_element_ok with (T := T) in H1 as (A1 & w & Q1 & L1 & C1); [|exact I].
  destruct h.
  - apply bind_ok in H as (v & s2 & H2 & H). apply ret_ok in H as [-> ->].
    apply guard_ok with (P := ready) (b := false) (R := R) (T := T) in H2 as (D2 & t & w2 & d & Q2 & L2 & HV & HD); [|auto|assumption|apply A1|assumption| |].
    2:{ rewrite (adv_ext _ _ _ A1); assumption. }
    2:{ rewrite (adv_nt _ _ _ A1); assumption. }
    split; [eapply dok_trans; [apply adv_dok; exact A1|exact D2]|]. split; [assumption|]. rewrite Q2 in *.
    exists w, t, w2, d. split; [exact Q1|]. split; [exact L1|]. split; [assumption|].
    split; [|assumption]. now rewrite (adv_lim _ _ _ A1) in HD.
  - apply ret_ok in H as [-> ->]. split; [now apply adv_dok|].
    destruct C1 as [r Hr]. exists w, r. rewrite Hr in L1. split; [now apply lay_cons in L1|]. auto.
Qed.

Lemma next_value_ok {A} (value : M A) R T s v c s' : reads_el false value R ->
  inv T s -> tracked s -> ext s = e -> nt s = false -> next_value value s = Ok (v, c) s' ->
  dok T s s' /\ exists w w' t tl d, rest s = w ++ c_colon :: w' ++ t ++ tl ++ rest s' /\
    layout w /\ lay w' (t ++ tl ++ rest s') /\ R v t d /\ within (S d) (lim s) /\ after_item c tl (rest s').
Proof.
  intros HR I TR HE HN H. unfold next_value in H.
  apply bind_ok in H as (x & s1 & H1 & H). assert (TR1 := keeps_ok _ _ _ _ keeps_skip_ws TR H1). apply skip_ws_ok with (T := T) in H1 as (A1 & w & Q1 & L1); [|exact I].
  apply bind_ok in H as (b & s2 & H2 & H). assert (TR2 : tracked s2) by (eapply keeps_ok; [|exact TR1|exact H2]; kp). apply consume_char_ok with (T := T) in H2 as (A2 & Q2); [|apply A1].
  destruct b; [|now apply fail_ok in H].
  apply bind_ok in H as (y & s3 & H3 & H). assert (RD := skip_ws_ready _ _ _ TR2 H3). apply skip_ws_ok with (T := T) in H3 as (A3 & w' & Q3 & L3); [|apply A2].
  assert (AA : adv T s s3) by (eapply adv_trans; [exact A1|eapply adv_trans; eassumption]).
  apply bind_ok in H as (a & s4 & H4 & H).
  apply guard_ok with (P := ready) (b := false) (R := R) (T := T) in H4 as (D4 & t & w4 & d & Q4 & L4 & HV & HD); [|auto|assumption|apply A3|assumption| |].
  2:{ rewrite (adv_ext _ _ _ AA); assumption. }
  2:{ rewrite (adv_nt _ _ _ AA); assumption. }
  apply bind_ok in H as (c' & s5 & H5 & H). apply ret_ok in H as [H ->]. injection H as -> ->.
  destruct (after_value T c' (set_rest (w4 ++ rest s4) s) w4 s4 s5) as (A5 & tl & Q5 & C5); [apply D4|assumption|assumption|reflexivity|].
  cbn [rest set_rest] in Q5.
  split; [eapply dok_trans; [apply adv_dok; exact AA|]; eapply dok_trans; [exact D4|now apply adv_dok]|].
  exists w, w', t, tl, d. rewrite Q5 in Q4. rewrite Q4 in *. split; [now rewrite Q1, Q2, Q3|].
  split; [rewrite Q2 in L1; now apply lay_cons in L1|]. split; [assumption|]. split; [assumption|].
  split; [|assumption]. now rewrite (adv_lim _ _ _ AA) in HD.
Qed.

Lemma map_loop_ok {A B} (key : M A) (value : M B) RK R T term n : reads_el false key RK -> reads_el false value R ->
  forall had s l s', inv T s -> tracked s -> ext s = e -> nt s = false -> map_loop n term key value had s = Ok l s' ->
  dok T s s' /\ (had = false -> l = []) /\
  exists w t w' d r, rest s = w ++ t ++ w' ++ rest s' /\ layout w /\ layout w' /\ sepd (pair_text RK R) l t d /\
    within d (lim s) /\ rest s' = term :: r.
Proof.
  intros HK HR. induction n as [|n IH]; [discriminate|]. intros had s l s' I TR HE HN H. cbn [map_loop] in H.
  apply bind_ok in H as (o & s1 & H1 & H).
  assert (TR1 := keeps_ok _ _ _ _ (keeps_next_key _ _ _ (proj1 HK)) TR H1).
  apply next_key_ok with (R := RK) (T := T) in H1 as (D1 & C1); auto. destruct o as [k|].
  - apply bind_ok in H as ([v c] & s2 & H2 & H).
    destruct C1 as (-> & w & tk & wk & dk & Q1 & L1 & HV1 & HD1 & C1).
    assert (TR2 := keeps_ok _ _ _ _ (keeps_next_value _ (proj1 HR)) TR1 H2).
    apply next_value_ok with (R := R) (T := T) in H2 as (D2 & w0 & w1 & t & tl & d & Q2 & L2 & L2' & HV2 & HD2 & C2);
      [|assumption|apply D1|assumption|rewrite (dok_ext _ _ _ D1); assumption|now rewrite (dok_nt0 _ _ _ D1)].
    cbn [fst snd] in H. apply bind_ok in H as (l' & s3 & H3 & H). apply ret_ok in H as [-> ->].
    assert (DD : dok T s s2) by (eapply dok_trans; eassumption).
    apply IH in H3 as (D3 & C3 & w3 & t3 & w3' & d3 & r & Q3 & L3 & L3' & HS & HD3 & T3);
      [|apply DD|assumption|rewrite (dok_ext _ _ _ DD); assumption|now rewrite (dok_nt0 _ _ _ DD)].
    split; [eapply dok_trans; eassumption|]. split; [discriminate|].
    assert (NE : forall (a b c d : str), a ++ b ++ c ++ d ++ term :: r <> []).
    { intros a1 a2 a3 a4 Q. apply app_eq_nil in Q as [_ Q]. apply app_eq_nil in Q as [_ Q].
      apply app_eq_nil in Q as [_ Q]. now apply app_eq_nil in Q as [_ Q]. }
    rewrite Q3, T3 in *. rewrite Q2 in *.
    apply lay_solid in C1; [|destruct w0; discriminate].
    apply lay_solid in L2'; [|specialize (NE t tl w3 (t3 ++ w3')); rewrite <- app_assoc in NE; exact NE].
    destruct (sepd_more (pair_text RK R) (k, v) (tk ++ (wk ++ w0) ++ c_colon :: w1 ++ t) (Nat.max dk d) c tl w3 l' t3 d3 w3' r term)
      as (t4 & w4 & d4 & QQ & HS4 & LL & DL); [constructor; auto; now apply layout_app|assumption|assumption|assumption|assumption|assumption|].
    exists w, t4, w4, d4, r. split.
    { rewrite Q1. rewrite (app_assoc t4), <- QQ. flat. reflexivity. }
    split; [eapply lay_solid; [exact L1|]; destruct tk, wk, w0; discriminate|].
    split; [assumption|]. split; [assumption|]. split; [|reflexivity].
    eapply within_le; [exact DL|]. apply within_max.
    + rewrite (dok_lim _ _ _ D1) in HD2. change (within (Nat.max (S dk) (S d)) (lim s)). now apply within_max.
    + now rewrite (dok_lim _ _ _ DD) in HD3.
  - apply ret_ok in H as [-> ->]. split; [assumption|]. split; [reflexivity|].
    destruct C1 as (w & r & L & Q & TT). exists w, [], [], 0%nat, r. cbn. split; [exact Q|]. split; [assumption|].
    split; [constructor|]. split; [constructor|]. split; [apply within_0|assumption].
Qed.
Lemma map_all_ok {A B} (key : M A) (value : M B) RK R T term s l s' : reads_el false key RK -> reads_el false value R ->
  inv T s -> tracked s -> ext s = e -> nt s = false -> map_all term key value s = Ok l s' ->
  dok T s s' /\ exists w t w' d, rest s = w ++ t ++ w' ++ rest s' /\ layout w /\ layout w' /\ sepd (pair_text RK R) l t d /\
    within d (lim s).
Proof.
  intros HK HR I TR HE HN H. apply bind_ok in H as (r & s1 & H1 & H). apply src_ok in H1 as [-> ->].
  apply map_loop_ok with (RK := RK) (R := R) (T := T) in H as (D & _ & w & t & w' & d & r & ? & ? & ? & ? & ? & _); auto.
  split; [assumption|]. exists w, t, w', d. auto.
Qed.

Lemma de_identifier_ok b : reads_in b de_identifier (fun k t d => ident_lit t k /\ d = 0%nat).
Proof.
  split; [apply keeps_identifier|]. intros T s k s' I _ HE HN H. apply bind_ok in H as (n & s1 & H1 & H).
  apply identifier_ok with (T := T) in H1 as (A1 & t & Q & L); [|exact I].
  apply bind_ok in H as (u & s2 & H2 & H). apply modify_ok in H2. apply ret_ok in H as [-> ->]. subst s2.
  split; [eapply dok_trans; [apply adv_dok; exact A1|apply dok_last_id; apply A1]|].
  exists t, [], 0%nat. split; [exact Q|]. split; [apply lay_nil|]. split; [auto|apply within_0].
Qed.

(** *** Structs *)
Lemma assoc_none {A} k (l : list (str * A)) : assoc k l = None -> ~ In k (map fst l).
Proof.
  induction l as [|[k' a] l IH]; cbn; [auto|]. destruct (str_eqb k k') eqn:Q; [discriminate|]. intros H [<-|HI]; [|now apply IH].
  rewrite str_eqb_refl in Q. discriminate.
Qed.
Lemma collect_ok is_opt fs l s r s' : collect is_opt fs l s = Ok r s' ->
  s' = s /\ map fst r = map fst fs /\
  Forall2 (fun ft fv => In fv l \/ (is_opt (snd ft) = true /\ snd fv = VNone /\ ~ In (fst fv) (map fst l))) fs r.
Proof.
  revert s r s'. induction fs as [|[f t] fs IH]; intros s r s' H; cbn [collect] in H.
  - apply ret_ok in H as [-> ->]. repeat split. constructor.
  - apply bind_ok in H as (v & s1 & H1 & H). apply bind_ok in H as (l' & s2 & H2 & H). apply ret_ok in H as [-> ->].
    apply IH in H2 as (-> & H2 & H3).
    assert (C : s1 = s /\ (In (f, v) l \/ (is_opt t = true /\ v = VNone /\ ~ In f (map fst l)))).
    { destruct (assoc f l) as [v'|] eqn:Q.
      - apply ret_ok in H1 as [-> ->]. split; [reflexivity|]. left. now apply assoc_in.
      - destruct (is_opt t); [|now apply fail_ok in H1]. apply ret_ok in H1 as [-> ->]. split; [reflexivity|]. right.
        split; [reflexivity|]. split; [reflexivity|]. now apply assoc_none. }
    destruct C as [-> C]. split; [reflexivity|]. split; [cbn; now rewrite H2|]. constructor; assumption.
Qed.

Lemma struct_loop_ok (value_of : ty -> M val) deny fields R U T n : (forall t, reads_el false (value_of t) (R t)) ->
  reads_el false any_value (fun x => U) ->
  forall had l0 s l s', inv T s -> tracked s -> ext s = e -> nt s = false -> struct_loop value_of deny fields n l0 had s = Ok l s' ->
  dok T s s' /\
  exists ents w t w' d r, (had = false -> ents = []) /\ rest s = w ++ t ++ w' ++ rest s' /\ layout w /\ layout w' /\
    sepd (field_text R U deny fields) ents t d /\ within d (lim s) /\ rest s' = c_rp :: r /\
    l = rev (given ents) ++ l0 /\ (NoDup (map fst l0) -> NoDup (map fst l)).
Proof.
  intros HR HU. induction n as [|n IH]; [discriminate|]. intros had l0 s l s' I TR HE HN H. cbn [struct_loop] in H.
  apply bind_ok in H as (o & s1 & H1 & H).
  assert (HK : reads_el false (field_key deny fields)
                 (fun k t d => (ident_lit t k /\ d = 0%nat) /\ (assoc k fields = None -> deny = false))).
  { split; [apply keeps_field_key|]. intros T1 z k z' I1 RD1 HE1 HN1 Q. apply bind_ok in Q as (k1 & z1 & Q1 & Q).
    destruct (proj2 (de_identifier_ok false) T1 z k1 z1 I1 (ready_tracked _ RD1) HE1 HN1 Q1) as (D1 & t & w & d & Q2 & L & HI & HD).
    destruct (assoc k1 fields) eqn:AS.
    - apply ret_ok in Q as [-> ->]. split; [assumption|]. exists t, w, d. split; [assumption|]. split; [assumption|].
      split; [split; [assumption|congruence]|assumption].
    - destruct deny; [now apply fail_ok in Q|]. apply ret_ok in Q as [-> ->]. split; [assumption|]. exists t, w, d.
      auto. }
  assert (TR1 := keeps_ok _ _ _ _ (keeps_next_key _ _ _ (proj1 HK)) TR H1).
  apply next_key_ok with (R := fun k t d => (ident_lit t k /\ d = 0%nat) /\ (assoc k fields = None -> deny = false)) (T := T) in H1 as (D1 & C1); auto.
  destruct o as [k|].
  - destruct C1 as (-> & w & tk & wk & dk & Q1 & L1 & ((HV1 & ->) & ND) & HD1 & C1).
    (* both kinds of fields go on in the same way *)
    assert (K : forall (val : Type) (m : M val) (RV : val -> str -> nat -> Prop) (f : val -> option Data.val) l1,
      reads_el false m RV -> (forall v t d w w', RV v t d -> layout w -> layout w' ->
          field_text R U deny fields (k, f v) (tk ++ w ++ c_colon :: w' ++ t) d) ->
      (p <- next_value m ;; struct_loop value_of deny fields n (l1 (fst p)) (snd p)) s1 = Ok l s' ->
      (forall v, l1 v = rev (given [(k, f v)]) ++ l0 /\ (NoDup (map fst l0) -> NoDup (map fst (l1 v)))) ->
      dok T s s' /\
      exists ents w t w' d r, (true = false -> ents = []) /\ rest s = w ++ t ++ w' ++ rest s' /\ layout w /\ layout w' /\
        sepd (field_text R U deny fields) ents t d /\ within d (lim s) /\ rest s' = c_rp :: r /\
        l = rev (given ents) ++ l0 /\ (NoDup (map fst l0) -> NoDup (map fst l))).
    { clear H. intros V m RV f l1 HM HT H HL1. apply bind_ok in H as ([v c] & s2 & H2 & H). cbn [fst snd] in H.
      assert (TR2 := keeps_ok _ _ _ _ (keeps_next_value _ (proj1 HM)) TR1 H2).
      apply next_value_ok with (R := RV) (T := T) in H2 as (D2 & w0 & w1 & t & tl & d & Q2 & L2 & L2' & HV2 & HD2 & C2);
        [|assumption|apply D1|assumption|rewrite (dok_ext _ _ _ D1); assumption|now rewrite (dok_nt0 _ _ _ D1)].
      assert (DD : dok T s s2) by (eapply dok_trans; eassumption).
      apply IH in H as (D3 & ents & w3 & t3 & w3' & d3 & r & C3 & Q3 & L3 & L3' & HS & HD3 & T3 & LL3 & NN3);
        [|apply DD|assumption|rewrite (dok_ext _ _ _ DD); assumption|now rewrite (dok_nt0 _ _ _ DD)].
      split; [eapply dok_trans; eassumption|].
      assert (NE : forall (a b c d : str), a ++ b ++ c ++ d ++ c_rp :: r <> []).
      { intros a1 a2 a3 a4 Q. apply app_eq_nil in Q as [_ Q]. apply app_eq_nil in Q as [_ Q].
        apply app_eq_nil in Q as [_ Q]. now apply app_eq_nil in Q as [_ Q]. }
      rewrite Q3, T3 in *. rewrite Q2 in *.
      apply lay_solid in C1; [|destruct w0; discriminate].
      apply lay_solid in L2'; [|specialize (NE t tl w3 (t3 ++ w3')); rewrite <- app_assoc in NE; exact NE].
      destruct (sepd_more (field_text R U deny fields) (k, f v) (tk ++ (wk ++ w0) ++ c_colon :: w1 ++ t) d c tl w3 ents t3 d3 w3' r c_rp)
        as (t4 & w4 & d4 & QQ & HS4 & LL & DL); [apply HT; auto; now apply layout_app|assumption|assumption|assumption|assumption|assumption|].
      exists ((k, f v) :: ents), w, t4, w4, d4, r. split; [discriminate|]. split.
      { rewrite Q1. rewrite (app_assoc t4), <- QQ. flat. reflexivity. }
      split; [eapply lay_solid; [exact L1|]; destruct tk, wk, w0; discriminate|].
      split; [assumption|]. split; [assumption|]. split.
      { eapply within_le; [exact DL|]. apply within_max.
        - now rewrite (dok_lim _ _ _ D1) in HD2.
        - now rewrite (dok_lim _ _ _ DD) in HD3. }
      split; [reflexivity|]. split; [|intros NN; apply NN3; now apply HL1].
      rewrite LL3. rewrite (proj1 (HL1 v)). rewrite app_assoc, <- rev_app_distr. f_equal. f_equal. cbn. now rewrite app_nil_r. }
    destruct (assoc k fields) as [t|] eqn:AS.
    + destruct (assoc k l0) as [v0|] eqn:AL; [now apply fail_ok in H|].
      apply (K val (value_of t) (R t) Some (fun v => (k, v) :: l0)); [apply HR| |exact H|].
      * intros v t' d' w' w'' HV LA LB. apply ft_known with (T := t); auto.
      * intros v. split; [reflexivity|]. cbn. intros NN. constructor; [now apply assoc_none|assumption].
    + apply (K value any_value (fun _ => U) (fun _ => None) (fun _ => l0)); [apply HU| |exact H|].
      * intros v t' d' w' w'' HV LA LB. apply ft_unknown; auto.
      * intros v. split; [reflexivity|auto].
  - apply ret_ok in H as [-> ->]. split; [assumption|].
    destruct C1 as (w & r & L & Q & TT). exists [], w, [], [], 0%nat, r. cbn. split; [reflexivity|]. split; [exact Q|]. split; [assumption|].
    split; [constructor|]. split; [constructor|]. split; [apply within_0|]. auto.
Qed.
Lemma struct_body_ok (value_of : ty -> M val) deny fields is_opt R U T s fs s' : (forall t, reads_el false (value_of t) (R t)) ->
  reads_el false any_value (fun x => U) ->
  inv T s -> tracked s -> ext s = e -> nt s = false -> struct_body value_of deny fields is_opt s = Ok fs s' ->
  dok T s s' /\ exists ents w t w' d, rest s = w ++ t ++ w' ++ rest s' /\ layout w /\ layout w' /\
    sepd (field_text R U deny fields) ents t d /\ within d (lim s) /\ struct_of is_opt fields ents fs.
Proof.
  intros HR HU I TR HE HN H. apply bind_ok in H as (r & s1 & H1 & H). apply src_ok in H1 as [-> ->].
  apply bind_ok in H as (l & s1 & H1 & H).
  apply struct_loop_ok with (R := R) (U := U) (T := T) in H1 as (D & ents & w & t & w' & d & r & _ & ? & ? & ? & ? & ? & _ & LL & NN); auto.
  apply collect_ok in H as (-> & F & C). rewrite app_nil_r in LL. subst l.
  split; [assumption|]. exists ents, w, t, w', d. repeat (split; [assumption|]).
  assert (IN : forall x, In x (rev (given ents)) <-> In x (given ents)) by (intros; symmetry; apply in_rev).
  split; [|split; [assumption|]].
  - apply NoDup_rev in NN; [|constructor]. rewrite <- map_rev, rev_involutive in NN. exact NN.
  - clear -C IN. induction C as [|ft fv fs l HC C IH]; constructor; auto.
    destruct HC as [HI|(A1 & A2 & A3)]; [left; now apply IN|right].
    split; [assumption|]. split; [assumption|]. intros HI. apply A3. rewrite map_rev. now apply -> in_rev.
Qed.

(** ** Brackets *)
Definition spaced {A} (R : A -> str -> nat -> Prop) (a : A) (t : str) (d : nat) : Prop :=
  exists w t', t = w ++ t' /\ layout w /\ R a t' d.
Definition enclosed {A} (o c : char) (R : A -> str -> nat -> Prop) (a : A) (t : str) (d : nat) : Prop :=
  exists w t' w' d', t = o :: w ++ t' ++ w' ++ [c] /\ layout w /\ layout w' /\ R a t' d' /\ d = S d'.
Definition parens {A} (b : bool) (R : A -> str -> nat -> Prop) (a : A) (t : str) (d : nat) : Prop :=
  exists t' d', paren b t' t /\ R a t' d' /\ d = S d'.

Lemma dok_set_nt T s x : inv T s -> dok T (set_nt x s) s -> inv T s.
Proof. auto. Qed.
Lemma dok_from_nt T s s' : dok T (set_nt false s) s' -> dok T s s'.
Proof. intros (A1 & A2 & A3 & A4 & A5). unfold dok. cbn in *. intuition. Qed.

(** the body of brackets, read after the opening bracket *)
Lemma body_close {A} T (body : M A) R s0 v s1 x s2 b s3 q : reads_in false body (spaced R) ->
  inv T s0 -> tracked s0 -> ext s0 = e -> nt s0 = false ->
  guard body s0 = Ok v s1 -> skip_ws s1 = Ok x s2 -> consume_char q s2 = Ok b s3 -> b = true ->
  dok T s0 s3 /\ exists w t w' d, rest s0 = w ++ t ++ w' ++ q :: rest s3 /\ layout w /\ layout w' /\
    R v t d /\ within (S d) (lim s0).
Proof.
  intros HB I TR HE HN H1 H2 H3 ->.
  apply guard_ok with (P := tracked) (b := false) (R := spaced R) (T := T) in H1 as (D1 & t & w1 & d & Q1 & L1 & (w0 & t0 & -> & L0 & HV) & HD); auto.
  apply skip_ws_ok with (T := T) in H2 as (A2 & w2 & Q2 & L2); [|apply D1].
  apply consume_char_ok with (T := T) in H3 as (A3 & Q3); [|apply A2].
  split; [eapply dok_trans; [exact D1|]; apply adv_dok; eapply adv_trans; eassumption|].
  rewrite Q2 in *. rewrite Q3 in *. exists w0, t0, (w1 ++ w2), d. split; [rewrite Q1; flat; reflexivity|]. split; [assumption|].
  split; [|auto]. apply layout_app; [eapply lay_solid; [exact L1|destruct w2; discriminate]|now apply lay_cons in L2].
Qed.

Lemma de_seq_ok {A} b (body : M A) R : reads_in false body (spaced R) -> reads_in b (de_seq body) (enclosed c_lb c_rb R).
Proof.
  intros HB. split; [apply keeps_seq, HB|]. intros T s a s' I TR HE HN H. unfold de_seq in H.
  apply bind_ok in H as (u & s1 & H1 & H). apply modify_ok in H1. subst s1.
  apply bind_ok in H as (c & s1 & H1 & H). assert (TR1 : tracked s1) by (eapply (keeps_ok _ (set_nt false s)); [|exact TR|exact H1]; kp). apply consume_char_ok with (T := T) in H1 as (A1 & Q1); [|exact I].
  destruct c; [|now apply fail_ok in H].
  apply bind_ok in H as (v & s2 & H2 & H). apply bind_ok in H as (x & s3 & H3 & H). apply bind_ok in H as (c & s4 & H4 & H).
  destruct c; [|now apply fail_ok in H]. apply ret_ok in H as [-> ->].
  destruct (body_close T body R s1 v s2 x s3 true s4 c_rb) as (D & w & t & w' & d & Q & L & L' & HV & HD); auto.
  { apply A1. }
  { rewrite (adv_ext _ _ _ A1); assumption. }
  { rewrite (adv_nt _ _ _ A1); reflexivity. }
  split; [apply dok_from_nt; eapply dok_trans; [apply adv_dok; exact A1|assumption]|].
  exists (c_lb :: w ++ t ++ w' ++ [c_rb]), [], (S d). cbn [rest set_nt] in Q1. rewrite Q1, Q.
  split; [cbn; flat; reflexivity|]. split; [apply lay_nil|]. split; [exists w, t, w', d; auto|].
  now rewrite (adv_lim _ _ _ A1) in HD.
Qed.
Lemma de_map_ok {A} b (body : M A) R : reads_in false body (spaced R) -> reads_in b (de_map body) (enclosed c_lc c_rc R).
Proof.
  intros HB. split; [apply keeps_map, HB|]. intros T s a s' I TR HE HN H. unfold de_map in H.
  apply bind_ok in H as (u & s1 & H1 & H). apply modify_ok in H1. subst s1.
  apply bind_ok in H as (c & s1 & H1 & H). assert (TR1 : tracked s1) by (eapply (keeps_ok _ (set_nt false s)); [|exact TR|exact H1]; kp). apply consume_char_ok with (T := T) in H1 as (A1 & Q1); [|exact I].
  destruct c; [|now apply fail_ok in H].
  apply bind_ok in H as (v & s2 & H2 & H). apply bind_ok in H as (x & s3 & H3 & H). apply bind_ok in H as (c & s4 & H4 & H).
  destruct c; [|now apply fail_ok in H]. apply ret_ok in H as [-> ->].
  destruct (body_close T body R s1 v s2 x s3 true s4 c_rc) as (D & w & t & w' & d & Q & L & L' & HV & HD); auto.
  { apply A1. }
  { rewrite (adv_ext _ _ _ A1); assumption. }
  { rewrite (adv_nt _ _ _ A1); reflexivity. }
  split; [apply dok_from_nt; eapply dok_trans; [apply adv_dok; exact A1|assumption]|].
  exists (c_lc :: w ++ t ++ w' ++ [c_rc]), [], (S d). cbn [rest set_nt] in Q1. rewrite Q1, Q.
  split; [cbn; flat; reflexivity|]. split; [apply lay_nil|]. split; [exists w, t, w', d; auto|].
  now rewrite (adv_lim _ _ _ A1) in HD.
Qed.
Lemma parens_ok {A} b (body onfail : M A) ef R : reads_in false body (spaced R) ->
  keeps onfail -> (forall s a s', onfail s = Ok a s' -> False) ->
  reads_in b (s <- get ;;
    b <- (if nt s then ret true else consume_char c_lp) ;;
    if b then
      modify (set_nt false) ;;;
      v <- guard body ;;
      skip_ws ;;;
      c <- (if nt s then ret true else consume_char c_rp) ;;
      if c then ret v else fail ef
    else onfail) (parens b R).
Proof.
  intros HB KF HF. split; [kq; apply HB|]. intros T s a s' I TR HE HN H.
  apply bind_ok in H as (s0 & s1 & H1 & H). apply get_ok in H1 as [-> ->].
  apply bind_ok in H as (c & s1 & H1 & H). assert (TR1 : tracked s1) by (eapply keeps_ok; [|exact TR|exact H1]; destruct (nt s); kp).
  destruct c; [|now apply HF in H].
  apply bind_ok in H as (u & s2 & H2 & H). apply modify_ok in H2. subst s2.
  apply bind_ok in H as (v & s2 & H2 & H). apply bind_ok in H as (x & s3 & H3 & H). apply bind_ok in H as (c & s4 & H4 & H).
  destruct c; [|now apply fail_ok in H]. apply ret_ok in H as [-> ->]. rewrite HN in *. destruct b.
  - apply ret_ok in H1 as [_ ->]. apply ret_ok in H4 as [_ ->].
    apply guard_ok with (P := tracked) (b := false) (R := spaced R) (T := T) in H2 as (D1 & t & w1 & d & Q1 & L1 & (w0 & t0 & -> & L0 & HV) & HD); auto.
    apply skip_ws_ok with (T := T) in H3 as (A2 & w2 & Q2 & L2); [|apply D1].
    split; [apply dok_from_nt; eapply dok_trans; [exact D1|now apply adv_dok]|].
    cbn [rest set_nt] in Q1. exists (w0 ++ t0), (w1 ++ w2), (S d). rewrite Q1. rewrite Q2 in *. split; [flat; reflexivity|].
    split; [now apply lay_app|]. split; [|exact HD]. exists t0, d. split; [now constructor|auto].
  - apply consume_char_ok with (T := T) in H1 as (A1 & Q1); [|exact I].
    destruct (body_close T body R (set_nt false s1) v s2 x s3 true s4 c_rp) as (D & w & t & w' & d & Q & L & L' & HV & HD); auto.
    { apply A1. }
    { cbn. rewrite (adv_ext _ _ _ A1); assumption. }
    split; [eapply dok_trans; [apply adv_dok; exact A1|]; now apply dok_from_nt|].
    exists (c_lp :: w ++ t ++ w' ++ [c_rp]), [], (S d). cbn [rest set_nt] in Q. rewrite Q1, Q.
    split; [cbn; flat; reflexivity|]. split; [apply lay_nil|]. split; [exists t, d; split; [now constructor|auto]|].
    cbn [lim set_nt] in HD. now rewrite (adv_lim _ _ _ A1) in HD.
Qed.
Lemma de_tuple_ok {A} b (body : M A) R : reads_in false body (spaced R) -> reads_in b (de_tuple body) (parens b R).
Proof. intros HB. apply parens_ok; [assumption|kp|]. intros s a s'. apply fail_ok. Qed.
Lemma struct_after_name_ok {A} b name (body : M A) R : reads_in false body (spaced R) ->
  reads_in b (struct_after_name name body) (parens b R).
Proof.
  intros HB. split; [apply keeps_struct, HB|]. intros T s a s' I TR HE HN H. unfold struct_after_name in H.
  refine (proj2 (parens_ok b (map_err (struct_error_name (if negb (nt s) && negb (is_nil name) then Some name else None)) body)
            (match name with [] => fail EExpectedStructLike | _ => fail (EExpectedNamedStructLike name) end)
            EExpectedStructLikeEnd R _ _ _) T s a s' I TR HE HN _).
  - now apply reads_in_map_err.
  - destruct name; kp.
  - intros z b0 z' Q. destruct name; now apply fail_ok in Q.
  - exact H.
Qed.

(** ** Options, newtypes, units *)
Definition opt_text {A} (r : str) (none : A) (b : bool) (R : bool -> A -> str -> nat -> Prop) (a : A) (t : str) (d : nat) : Prop :=
  (a = none /\ t = s_None /\ d = 0%nat) \/
  (exists w w' w'' t' d', t = s_Some ++ w ++ c_lp :: w' ++ t' ++ w'' ++ [c_rp] /\ layout w /\ layout w' /\ tail w'' /\
     R (x_unwrap_variant_newtypes e) a t' d' /\ d = S d') \/
  (exists t' d', x_implicit_some e = true /\
     ((ident_at s_None r = false /\ ident_at s_Some r = false /\ t = t') \/ exists w, layout w /\ t = s_Some ++ w ++ t') /\
     R b a t' d' /\ d = S d').
Lemma bare_text_at t w r n : ident_at n (t ++ w ++ r) = false -> forall c r', t = n ++ c :: r' -> xid_continue c = true.
Proof.
  intros H c r' ->. unfold ident_at in H. rewrite <- app_assoc, strip_prefix_app in H. cbn in H.
  now apply negb_false_iff in H.
Qed.
Lemma de_option_ok {A} b (none : A) (some : M A) R : (forall b, reads_el b some (R b)) ->
  forall T s a s', inv T s -> ready s -> ext s = e -> nt s = b -> de_option none some s = Ok a s' ->
    dok T s s' /\ exists t w d, rest s = t ++ w ++ rest s' /\ lay w (rest s') /\ opt_text (rest s) none b R a t d /\ within d (lim s).
Proof.
  intros HB T s a s' I RD HE HN H. unfold de_option in H.
  apply bind_ok in H as (n & s1 & H1 & H). assert (IN := H1). rewrite consume_ident_eq in IN.
  apply consume_ident_ok with (T := T) in H1 as (A1 & Q1); [|exact I].
  destruct n.
  { apply ret_ok in H as [-> ->]. split; [now apply adv_dok|]. exists s_None, [], 0%nat. split; [exact Q1|].
    split; [apply lay_nil|]. split; [left; auto|apply within_0]. }
  subst s1. apply bind_ok in H as (sm & s1 & H1 & H). assert (TR1 : tracked s1) by (eapply keeps_ok; [|exact (ready_tracked _ RD)|exact H1]; kp). assert (IS := H1). rewrite consume_ident_eq in IS.
  apply consume_ident_ok with (T := T) in H1 as (A2 & Q2); [|exact I].
  assert (INF : ident_at s_None (rest s) = false).
  { destruct (ident_at s_None (rest s)) eqn:Z; [|reflexivity]. destruct (strip_prefix _ _) in IN; discriminate IN. }
  assert (ISF : sm = false -> ident_at s_Some (rest s) = false).
  { intros ->. destruct (ident_at s_Some (rest s)) eqn:Z; [|reflexivity]. destruct (strip_prefix _ _) in IS; discriminate IS. }
  clear IN IS. apply bind_ok in H as (op & s2 & H2 & H).
  assert (TR2 : tracked s2 /\ (op = false -> ready s2)).
  { destruct sm.
    - apply bind_ok in H2 as (x & s3 & H3 & H2). apply skip_ws_ready in H3; [|exact TR1].
      split; [eapply keeps_ok; [|exact (ready_tracked _ H3)|exact H2]; kp|]. intros ->.
      rewrite consume_char_eq in H2. destruct (rest s3) as [|c0 r0]; [now injection H2 as <-|]. destruct (c0 =? c_lp); [discriminate|now injection H2 as <-].
    - apply ret_ok in H2 as [-> ->]. subst s1. auto. }
  destruct TR2 as [TR2 RD2].
  assert (C : adv T s1 s2 /\ if op then sm = true /\ exists w, layout w /\ rest s1 = w ++ c_lp :: rest s2
              else exists w, rest s1 = w ++ rest s2 /\ lay w (rest s2) /\ (sm = false -> w = [])).
  { destruct sm.
    - apply bind_ok in H2 as (x & s3 & H3 & H2). apply skip_ws_ok with (T := T) in H3 as (A3 & w & Q3 & L3); [|apply A2].
      apply consume_char_ok with (T := T) in H2 as (A4 & Q4); [|apply A3]. split; [eapply adv_trans; eassumption|].
      destruct op.
      + split; [reflexivity|]. exists w. rewrite Q4 in *. split; [now apply lay_cons in L3|assumption].
      + subst s3. exists w. split; [assumption|]. split; [assumption|discriminate].
    - apply ret_ok in H2 as [-> ->]. split; [apply adv_refl, A2|]. exists []. split; [reflexivity|]. split; [apply lay_nil|auto]. }
  destruct C as (A3 & C). assert (AA : adv T s s2) by (eapply adv_trans; eassumption).
  destruct op.
  - destruct C as (-> & w & L & Q3).
    apply bind_ok in H as (x & s3 & H3 & H). assert (RD3 := skip_ws_ready _ _ _ TR2 H3). apply skip_ws_ok with (T := T) in H3 as (A4 & w' & Q4 & L4); [|apply A3].
    apply bind_ok in H as (u & s4 & H4 & H). apply modify_ok in H4. subst s4.
    assert (AB : adv T s s3) by (eapply adv_trans; eassumption).
    apply bind_ok in H as (v & s4 & H4 & H).
    apply guard_ok with (P := ready) (b := x_unwrap_variant_newtypes e) (R := R (x_unwrap_variant_newtypes e)) (T := T) in H4
      as (D5 & t & w5 & d & Q5 & L5 & HV & HD); [|auto|apply HB|apply A4|exact RD3| |].
    2:{ cbn. rewrite (adv_ext _ _ _ AB); assumption. }
    2:{ cbn. rewrite (adv_ext _ _ _ AB), HE. reflexivity. }
    apply bind_ok in H as (u' & s5 & H5 & H). apply modify_ok in H5. subst s5.
    apply bind_ok in H as (cc & s5 & H5 & H). apply bind_ok in H as (c & s6 & H6 & H).
    destruct c; [|now apply fail_ok in H]. apply ret_ok in H as [-> ->].
    destruct (comma_tail T (set_nt false s4) cc s5 true s6 c_rp) as (A7 & w7 & T7 & Q7); auto; [apply D5|].
    cbn [rest set_nt] in *. assert (L5' : layout w5) by (eapply lay_solid; [exact L5|rewrite Q7; destruct w7; discriminate]).
    split.
    { eapply dok_trans; [apply adv_dok; exact AB|]. destruct D5 as (E1 & E2 & E3 & E4 & E5).
      apply adv_dok in A7. destruct A7 as (F1 & F2 & F3 & F4 & F5). cbn in *. unfold dok.
      split; [assumption|]. split; [eapply suf_trans; eassumption|]. split; [congruence|]. split; [congruence|auto]. }
    exists (s_Some ++ w ++ c_lp :: w' ++ t ++ (w5 ++ w7) ++ [c_rp]), [], (S d).
    split; [rewrite Q2, Q3, Q4, Q5, Q7; flat; reflexivity|]. split; [apply lay_nil|]. split.
    + right. left. exists w, w', (w5 ++ w7), t, d. split; [reflexivity|]. split; [assumption|].
      split.
      { eapply lay_solid; [exact L4|]. rewrite Q5, Q7. intros Q. apply app_eq_nil in Q as [_ Q].
        apply app_eq_nil in Q as [_ Q]. now apply app_eq_nil in Q as [_ Q]. }
      split; [|auto]. destruct T7 as [w7 L7|w7 w7' L7 L7']; [constructor; now apply layout_app|].
      rewrite app_assoc. constructor; [now apply layout_app|assumption].
    + cbn [lim set_nt] in HD. now rewrite (adv_lim _ _ _ AB) in HD.
  - destruct C as (w & Q3 & L3 & C3).
    apply bind_ok in H as (z & s3 & H3 & H). apply get_ok in H3 as [-> ->].
    rewrite (adv_ext _ _ _ AA), HE in H. destruct (x_implicit_some e) eqn:XI; [|now apply fail_ok in H].
    apply guard_ok with (P := ready) (b := b) (R := R b) (T := T) in H as (D5 & t & w5 & d & Q5 & L5 & HV & HD); [|auto|apply HB|apply A3|auto| |].
    2:{ rewrite (adv_ext _ _ _ AA); assumption. }
    2:{ rewrite (adv_nt _ _ _ AA); assumption. }
    split; [eapply dok_trans; [apply adv_dok; exact AA|assumption]|]. rewrite (adv_lim _ _ _ AA) in HD.
    destruct sm.
    + rewrite Q5 in *.
      destruct (t ++ w5 ++ rest s') as [|x y] eqn:QE.
      * apply app_eq_nil in QE as [-> QE]. apply app_eq_nil in QE as [-> QE].
        exists (s_Some ++ []), w, (S d). rewrite Q2, Q3, QE, !app_nil_r. split; [reflexivity|]. rewrite QE in *. split; [assumption|].
        split; [|exact HD]. right. right. exists [], d. split; [exact XI|].
        split; [right; exists []; split; [constructor|reflexivity]|]. auto.
      * exists (s_Some ++ w ++ t), w5, (S d). split; [rewrite Q2, Q3, <- QE; flat; reflexivity|]. split; [assumption|].
        split; [|exact HD]. right. right. exists t, d. split; [exact XI|].
        split; [right; exists w; split; [now apply lay_cons in L3|reflexivity]|]. auto.
    + rewrite (C3 eq_refl) in *. subst s1. exists t, w5, (S d). cbn [app] in Q3.
      split; [rewrite Q3, Q5; reflexivity|]. split; [assumption|].
      split; [|exact HD]. right. right. exists t, d. split; [exact XI|]. split; [left; auto|]. auto.
Qed.

Definition newtype_text {A} (name : str) (b : bool) (R : A -> str -> nat -> Prop) (a : A) (t : str) (d : nat) : Prop :=
  (x_unwrap_newtypes e || b = true /\ exists d', R a t d' /\ d = S d') \/
  (x_unwrap_newtypes e = false /\ b = false /\
   exists tn w t' w' d', t = tn ++ c_lp :: w ++ t' ++ w' ++ [c_rp] /\ name_acc e true name tn /\ layout w /\ tail w' /\
     R a t' d' /\ d = S d').
Lemma struct_name_ok T name s b s' : inv T s -> ext s = e -> consume_struct_name name s = Ok b s' ->
  adv T s s' /\ exists tn, rest s = tn ++ rest s' /\ name_acc e false name tn.
Proof.
  intros I HE H. apply consume_struct_name_ok with (T := T) in H as (A1 & C); [|exact I]. split; [exact A1|]. destruct b.
  - destruct C as (t & Q & L). exists t. split; [assumption|]. rewrite <- (app_nil_r t).
    apply na_some; auto. constructor.
  - destruct C as (-> & Q). exists []. split; [reflexivity|]. rewrite HE in Q. apply na_none; auto. constructor.
Qed.
Lemma name_acc_gap name tn w : name_acc e false name tn -> layout w -> name_acc e true name (tn ++ w).
Proof.
  intros H L. inversion H; subst.
  - apply na_none; auto; [now apply layout_app|discriminate].
  - rewrite <- app_assoc. apply na_some; auto; [now apply layout_app|discriminate].
Qed.
Lemma de_newtype_ok {A} b name (inner : M A) R : reads_el false inner R ->
  reads_el b (de_newtype name inner) (newtype_text name b R).
Proof.
  intros HB. split; [apply keeps_newtype, HB|]. intros T s a s' I RD HE HN H. unfold de_newtype in H.
  apply bind_ok in H as (z & s1 & H1 & H). apply get_ok in H1 as [-> ->]. rewrite HE, HN in H.
  destruct (x_unwrap_newtypes e || b) eqn:XB.
  - apply bind_ok in H as (u & s1 & H1 & H). apply modify_ok in H1. subst s1.
    apply guard_ok with (P := ready) (b := false) (R := R) (T := T) in H as (D5 & t & w5 & d & Q5 & L5 & HV & HD); auto.
    split; [now apply dok_from_nt|]. exists t, w5, (S d). split; [exact Q5|]. split; [assumption|].
    split; [|exact HD]. left. eauto.
  - apply orb_false_elim in XB as [XU ->].
    apply bind_ok in H as (c1 & s1 & H1 & H). assert (TR1 : tracked s1) by (eapply keeps_ok; [|exact (ready_tracked _ RD)|exact H1]; kp). apply struct_name_ok with (T := T) in H1 as (A1 & tn & Q1 & N1); auto.
    apply bind_ok in H as (x & s2 & H2 & H). assert (TR2 := keeps_ok _ _ _ _ keeps_skip_ws TR1 H2). apply skip_ws_ok with (T := T) in H2 as (A2 & w & Q2 & L2); [|apply A1].
    apply bind_ok in H as (c2 & s3 & H3 & H). assert (TR3 : tracked s3) by (eapply keeps_ok; [|exact TR2|exact H3]; kp). apply consume_char_ok with (T := T) in H3 as (A3 & Q3); [|apply A2].
    destruct c2; [|destruct name; now apply fail_ok in H].
    apply bind_ok in H as (y & s4 & H4 & H). assert (RD4 := skip_ws_ready _ _ _ TR3 H4). apply skip_ws_ok with (T := T) in H4 as (A4 & w' & Q4 & L4); [|apply A3].
    assert (AA : adv T s s4) by (repeat (eapply adv_trans; [eassumption|]); apply adv_refl, A4).
    apply bind_ok in H as (v & s5 & H5 & H).
    apply guard_ok with (P := ready) (b := false) (R := R) (T := T) in H5 as (D5 & t & w5 & d & Q5 & L5 & HV & HD); [|auto|apply HB|apply A4|exact RD4| |].
    2:{ rewrite (adv_ext _ _ _ AA); assumption. }
    2:{ rewrite (adv_nt _ _ _ AA); assumption. }
    apply bind_ok in H as (cc & s6 & H6 & H). apply bind_ok in H as (c & s7 & H7 & H).
    destruct c; [|now apply fail_ok in H]. apply ret_ok in H as [-> ->].
    destruct (comma_tail T s5 cc s6 true s7 c_rp) as (A7 & w7 & T7 & Q7); auto; [apply D5|].
    assert (L5' : layout w5) by (eapply lay_solid; [exact L5|rewrite Q7; destruct w7; discriminate]).
    rewrite Q3 in L2. apply lay_cons in L2.
    split; [eapply dok_trans; [apply adv_dok; exact AA|]; eapply dok_trans; [exact D5|now apply adv_dok]|].
    exists (tn ++ w ++ c_lp :: w' ++ t ++ (w5 ++ w7) ++ [c_rp]), [], (S d).
    split; [rewrite Q1, Q2, Q3, Q4, Q5, Q7; flat; reflexivity|]. split; [apply lay_nil|].
    split; [|now rewrite (adv_lim _ _ _ AA) in HD].
    right. split; [assumption|]. split; [reflexivity|]. exists (tn ++ w), w', t, (w5 ++ w7), d.
    split; [flat; reflexivity|]. split; [now apply name_acc_gap|].
    split; [eapply lay_solid; [exact L4|]; rewrite Q5, Q7; intros Q; apply app_eq_nil in Q as [_ Q];
            apply app_eq_nil in Q as [_ Q]; now apply app_eq_nil in Q as [_ Q]|].
    split; [|auto]. destruct T7 as [w7 L7|w7 w7' L7 L7']; [constructor; now apply layout_app|].
    rewrite app_assoc. constructor; [now apply layout_app|assumption].
Qed.

(** ** Untyped values *)
Lemma check_struct_type_ok u p T s t s' : inv T s -> check_struct_type u p s = Ok t s' ->
  adv T s s' /\ rest s' = rest s.
Proof.
  intros I H. assert (W := check_struct_type_total u p T s I). Transparent wp. unfold wp in W. Opaque wp.
  rewrite H in W. destruct W as [A1 C]. split; [exact A1|]. now injection C as ->.
Qed.
(** a parenthesis is never taken for a unit *)
Lemma check_struct_type_unit s r s' : rest s = c_lp :: r -> check_struct_type true false s = Ok SUnit s' -> False.
Proof.
  intros HR H. unfold check_struct_type in H. apply bind_ok in H as (k & s1 & H1 & H).
  unfold get_cursor_m in H1. injection H1 as _ <-.
  apply bind_ok in H as (t & s2 & H2 & H). apply bind_ok in H as (u & s3 & H3 & H). apply ret_ok in H as [<- ->]. clear H3.
  unfold check_struct_type_inner in H2. cbv zeta in H2. cbn [negb andb] in H2.
  apply bind_ok in H2 as (b & s4 & H4 & H2). rewrite consume_char_eq, HR in H4. cbn in H4. injection H4 as <- <-.
  apply bind_ok in H2 as (x & s4 & H4 & H2). apply bind_ok in H2 as (rp & s5 & H5 & H2).
  destruct rp; [now apply ret_ok in H2 as [? _]|].
  apply bind_ok in H2 as (id & s6 & H6 & H2). destruct id; [|now apply ret_ok in H2 as [? _]].
  apply bind_ok in H2 as (y & s7 & H7 & H2). apply bind_ok in H2 as (c & s8 & H8 & H2).
  destruct c as [c|]; [|now apply ret_ok in H2 as [? _]].
  destruct (c =? c_colon); [now apply ret_ok in H2 as [? _]|].
  destruct (c =? c_comma).
  - apply bind_ok in H2 as (q & s9 & H9 & H2). apply bind_ok in H2 as (q' & s10 & H10 & H2). apply bind_ok in H2 as (q2 & s11 & H11 & H2).
    apply ret_ok in H2 as [H2 _]. now destruct q2.
  - destruct (c =? c_rp); now apply ret_ok in H2 as [? _].
Qed.

(** the bodies of sequences, maps and structs *)
Lemma seq_body_ok {A B} (elem : M A) term R (f : list A -> B) : reads_el false elem R ->
  reads_in false (l <- seq_all term elem ;; ret (f l)) (spaced (fun x t d => exists l, x = f l /\ sepd R l t d)).
Proof.
  intros HR. apply reads_in_map. split; [apply keeps_seq_all, HR|]. intros T s l s' I TR HE HN H.
  apply seq_all_ok with (R := R) (T := T) in H as (D & w & t & w' & d & Q & L & L' & HS & HD); auto.
  split; [assumption|]. exists (w ++ t), w', d. split; [rewrite Q; flat; reflexivity|]. split; [now left|].
  split; [|assumption]. exists w, t. split; [reflexivity|]. split; [assumption|]. eauto.
Qed.
Lemma map_body_ok {A B C} (key : M A) (value : M B) term RK R (f : list (A * B) -> C) :
  reads_el false key RK -> reads_el false value R ->
  reads_in false (l <- map_all term key value ;; ret (f l)) (spaced (fun x t d => exists l, x = f l /\ sepd (pair_text RK R) l t d)).
Proof.
  intros HK HR. apply reads_in_map. split; [apply keeps_map_all; [apply HK|apply HR]|]. intros T s l s' I TR HE HN H.
  apply map_all_ok with (RK := RK) (R := R) (T := T) in H as (D & w & t & w' & d & Q & L & L' & HS & HD); auto.
  split; [assumption|]. exists (w ++ t), w', d. split; [rewrite Q; flat; reflexivity|]. split; [now left|].
  split; [|assumption]. exists w, t. split; [reflexivity|]. split; [assumption|]. eauto.
Qed.
Lemma tuple_body_ok {B} (rec : ty -> M val) Ts R (f : list val -> B) : (forall t, reads_el false (rec t) (R t)) ->
  reads_in false (l <- tuple_elems (map rec Ts) 0 true ;; ret (f l))
    (spaced (fun x t d => exists l, x = f l /\ length Ts = length l /\ sepd (fun p => R (fst p) (snd p)) (combine Ts l) t d)).
Proof.
  intros HR. apply reads_in_map. split; [apply keeps_tuple; apply HR|]. intros T s l s' I TR HE HN H.
  apply tuple_elems_ok with (R := R) (T := T) in H as (D & _ & LEN & w & t & w' & d & Q & L & L' & HS & HD); auto.
  split; [assumption|]. destruct (t ++ w' ++ rest s') as [|x y] eqn:QE.
  - apply app_eq_nil in QE as [-> QE]. apply app_eq_nil in QE as [-> QE]. rewrite QE in *.
    exists [], w, d. split; [rewrite Q; reflexivity|]. split; [assumption|]. split; [|assumption].
    exists [], []. split; [reflexivity|]. split; [constructor|]. eauto.
  - exists (w ++ t), w', d. rewrite <- QE in Q. split; [rewrite Q; flat; reflexivity|]. split; [assumption|].
    split; [|assumption]. exists w, t. split; [reflexivity|]. split; [now apply lay_cons in L|]. eauto.
Qed.
Lemma struct_body_text {B} (value_of : ty -> M val) deny fields is_opt R U (f : list (str * val) -> B) :
  (forall t, reads_el false (value_of t) (R t)) -> reads_el false any_value (fun x => U) ->
  reads_in false (l <- struct_body value_of deny fields is_opt ;; ret (f l))
    (spaced (fun x t d => exists fs ents, x = f fs /\ sepd (field_text R U deny fields) ents t d /\ struct_of is_opt fields ents fs)).
Proof.
  intros HR HU. apply reads_in_map. split; [apply keeps_struct_body; apply HR|]. intros T s fs s' I TR HE HN H.
  apply struct_body_ok with (R := R) (U := U) (T := T) in H as (D & ents & w & t & w' & d & Q & L & L' & HS & HD & SO); auto.
  split; [assumption|]. exists (w ++ t), w', d. split; [rewrite Q; flat; reflexivity|]. split; [now left|].
  split; [|assumption]. exists w, t. split; [reflexivity|]. split; [assumption|]. exists fs, ents. auto.
Qed.

Lemma total_any_number_or_bytes : total any_number_or_bytes.
Proof.
  intros T s I. unfold any_number_or_bytes. eapply wp_bind_ok; [reflexivity|].
  destruct (starts_with [c_b] (rest s)) eqn:SB; cbn [andb].
  1: destruct (negb (starts_with s_bsq (rest s))).
  { apply starts_with_true in SB as [r Hr].
    assert (TT : total (b <- byte_string ;; ret (XBytes b))) by (apply total_bind; [apply total_byte_string|intros; apply total_ret]).
    specialize (TT T s I). Transparent wp. unfold wp in *. Opaque wp.
    replace ((b <- de_bytes ;; ret (XBytes b)) s) with ((b <- byte_string ;; ret (XBytes b)) s); [exact TT|].
    unfold de_bytes, bind, check_char. rewrite Hr. reflexivity. }
  all: eapply wp_bind_ok; [reflexivity|].
  all: assert (K : forall f : num -> value, total (e <- any_number ;; ret (f e)))
    by (intros f; apply total_bind; [apply total_any_number|intros; apply total_ret]).
  all: destruct (starts_with s_dotdoteq (rest s));
    [refine (total_bind _ _ (total_consume_str _) _ T s I); intros _; apply K|].
  all: eapply wp_bind_ok; [reflexivity|].
  all: destruct (starts_with s_dotdot (rest s)) eqn:DD.
  all: try (refine (total_bind _ _ total_any_number _ T s I); intros; apply total_float_range).
  all: apply starts_with_iff in DD as [r' Hr]; apply wp_bind;
    (eapply wp_of_slice; [rewrite Hr; apply (bdrop_app s_dotdot r')|]);
    destruct (match r' with [] => false | c :: _ => is_number_start c (rest s) end);
    refine (total_bind _ _ (total_consume_str _) _ T s I); intros _; first [apply K|apply total_ret].
Qed.

Section Any.
Variable any : M value.
Hypothesis ANY : forall b, reads_el b any (vacc e b).

Definition any_seq_text (x : value) (t : str) (d : nat) : Prop := exists l, x = XSeq l /\ sepd (vacc e false) l t d.
Definition any_struct_text (x : value) (t : str) (d : nat) : Prop :=
  exists l, x = XMap l /\ sepd (pair_text key_text (vacc e false)) l t d.

Lemma any_key_ok : reads_in false (k <- de_identifier ;; ret (XStr k)) key_text.
Proof.
  apply reads_in_map. eapply reads_in_weaken; [|apply de_identifier_ok]. intros k t d [H ->]. exists k. auto.
Qed.

Definition any_struct : M value :=
  t <- check_struct_type true false ;;
  match t with
  | SUnit => ret XUnit
  | Named => struct_after_name [] (l <- map_all c_rp (k <- de_identifier ;; ret (XStr k)) any ;;
                                   ret (XMap l))
  | _ => de_tuple (l <- seq_all c_rp any ;; ret (XSeq l))
  end.

Lemma any_struct_ok T s x s' : inv T s -> tracked s -> ext s = e -> nt s = false -> any_struct s = Ok x s' ->
  dok T s s' /\ ((x = XUnit /\ rest s' = rest s /\ forall r, rest s <> c_lp :: r) \/
    exists t w d, rest s = t ++ w ++ rest s' /\ lay w (rest s') /\ within d (lim s) /\
      (parens false any_seq_text x t d \/ parens false any_struct_text x t d)).
Proof.
  intros I TR HE HN H. unfold any_struct in H. apply bind_ok in H as (t & s1 & H1 & H). assert (TR1 := keeps_ok _ _ _ _ (keeps_struct_type _ _) TR H1).
  destruct (check_struct_type_ok true false T s t s1 I H1) as [A1 QR].
  assert (K : forall (m : M value) R, reads_in false m R -> m s1 = Ok x s' ->
    (forall t d, R x t d -> parens false any_seq_text x t d \/ parens false any_struct_text x t d) ->
    dok T s s' /\ ((x = XUnit /\ rest s' = rest s /\ forall r, rest s <> c_lp :: r) \/
    exists t w d, rest s = t ++ w ++ rest s' /\ lay w (rest s') /\ within d (lim s) /\
      (parens false any_seq_text x t d \/ parens false any_struct_text x t d))).
  { intros m R HM Q HW. destruct HM as [_ HM]. destruct (HM T s1 x s') as (D & t' & w & d & Q' & L & HV & HD); auto.
    - apply A1.
    - rewrite (adv_ext _ _ _ A1); assumption.
    - rewrite (adv_nt _ _ _ A1); assumption.
    - split; [eapply dok_trans; [apply adv_dok; exact A1|assumption]|]. right. exists t', w, d. rewrite <- QR.
      rewrite (adv_lim _ _ _ A1) in HD. auto. }
  assert (TUP : de_tuple (l <- seq_all c_rp any ;; ret (XSeq l)) s1 = Ok x s' ->
    dok T s s' /\ ((x = XUnit /\ rest s' = rest s /\ forall r, rest s <> c_lp :: r) \/
    exists t w d, rest s = t ++ w ++ rest s' /\ lay w (rest s') /\ within d (lim s) /\
      (parens false any_seq_text x t d \/ parens false any_struct_text x t d))).
  { intros Q. eapply K; [|exact Q|intros t0 d0 P; left; exact P].
    apply de_tuple_ok. apply seq_body_ok with (f := XSeq). apply ANY. }
  destruct t; try (now apply TUP).
  - eapply K; [|exact H|intros t0 d0 P; right; exact P]. apply struct_after_name_ok.
    apply map_body_ok with (f := XMap); [apply reads_in_el, any_key_ok|apply ANY].
  - apply ret_ok in H as [-> ->]. split; [now apply adv_dok|]. left. split; [reflexivity|]. split; [assumption|].
    intros r Q. now apply (check_struct_type_unit s r s1 Q).
Qed.

Lemma any_main_ok b T s x s' : inv T s -> ready s -> ext s = e -> nt s = false -> any_main any s = Ok x s' ->
  dok T s s' /\ exists t w d, rest s = t ++ w ++ rest s' /\ lay w (rest s') /\ vacc e b x t d /\ within d (lim s).
Proof.
  intros I RD HE HN H. assert (TR := ready_tracked _ RD). unfold any_main in H. fold any_struct in H. cbv zeta in H.
  (* a word that is a value *)
  assert (W : forall m w (x0 : value) s1, adv T s s1 -> rest s = w ++ rest s1 -> m = Ok x0 s1 -> atom x0 w -> m = Ok x s' ->
    dok T s s' /\ exists t w d, rest s = t ++ w ++ rest s' /\ lay w (rest s') /\ vacc e b x t d /\ within d (lim s)).
  { intros m w x0 s1 A1 Q -> HA Q'. injection Q' as <- <-. split; [now apply adv_dok|]. exists w, [], 0%nat.
    split; [exact Q|]. split; [apply lay_nil|]. split; [now apply va_atom|apply within_0]. }
  apply bind_ok in H as (c1 & s1 & H1 & H). apply consume_ident_ok with (T := T) in H1 as (A1 & Q1); [|exact I].
  destruct c1; [apply (W (Ok (XBool true) s1) s_true (XBool true) s1 A1 Q1 eq_refl (at_bool true) H)|]. subst s1.
  apply bind_ok in H as (c1 & s1 & H1 & H). apply consume_ident_ok with (T := T) in H1 as (A2 & Q1); [|exact I].
  destruct c1; [apply (W (Ok (XBool false) s1) s_false (XBool false) s1 A2 Q1 eq_refl (at_bool false) H)|]. subst s1.
  apply bind_ok in H as (c1 & s1 & H1 & H). rewrite check_ident_eq in H1. injection H1 as <- <-.
  destruct (ident_at s_Some (rest s)) eqn:IS.
  { (* Some *)
    destruct (de_option_ok false XNone (v <- any ;; ret (XSome v)) (fun b x t d => exists y, x = XSome y /\ vacc e b y t d)) with (T := T) (s := s) (a := x) (s' := s')
      as (D & t & w & d & Q & L & HV & HD); auto.
    { intros b0. apply reads_in_map. eapply reads_in_weaken; [|apply ANY]. intros y t d V. eauto. }
    split; [assumption|]. exists t, w, d. split; [assumption|]. split; [assumption|]. split; [|assumption].
    destruct HV as [(-> & -> & ->)|[(w1 & w2 & w3 & t' & d' & -> & L1 & L2 & T3 & (y & -> & V) & ->)|(t' & d' & XI & HP & (y & -> & V) & ->)]].
    - apply va_atom, at_none.
    - now apply va_some.
    - destruct HP as [(_ & F & _)|(w1 & L1 & ->)]; [congruence|now apply va_implicit]. }
  apply bind_ok in H as (c1 & s1 & H1 & H). apply consume_ident_ok with (T := T) in H1 as (A3 & Q1); [|exact I].
  destruct c1; [apply (W (Ok XNone s1) s_None XNone s1 A3 Q1 eq_refl at_none H)|]. subst s1.
  apply bind_ok in H as (c1 & s1 & H1 & H). apply consume_str_ok with (T := T) in H1 as (A4 & Q1); [|exact I].
  destruct c1; [apply (W (Ok XUnit s1) s_unit XUnit s1 A4 Q1 eq_refl at_unit H)|]. subst s1.
  (* the float words, possibly starting a range *)
  assert (F : forall n w s1, adv T s s1 -> rest s = w ++ rest s1 -> num_lit n w ->
    float_range_or_value n s1 = Ok x s' ->
    dok T s s' /\ exists t w d, rest s = t ++ w ++ rest s' /\ lay w (rest s') /\ vacc e b x t d /\ within d (lim s)).
  { intros n w s1 A1' Q HI Q'. assert (A5 := total_ok _ _ _ _ _ (total_float_range n) (adv_inv _ _ _ A1') Q').
    apply float_range_sound with (T := T) in Q' as (t & Ht & AT); [|apply A1'].
    split; [apply adv_dok; eapply adv_trans; eassumption|].
    exists (w ++ t), [], 0%nat. split; [rewrite Q, Ht; flat; reflexivity|]. split; [apply lay_nil|]. split; [|apply within_0].
    apply va_atom. now apply AT. }
  apply bind_ok in H as (c1 & s1 & H1 & H). apply consume_ident_ok with (T := T) in H1 as (A5 & Q1); [|exact I].
  apply bind_ok in H as (c2 & s2 & H2 & H).
  destruct c1. { apply ret_ok in H2 as [-> ->]. apply (F (NFloat F32 (f_inf F32)) s_inf s1 A5 Q1); [apply nl_word; auto|exact H]. } subst s1.
  apply consume_ident_ok with (T := T) in H2 as (A6 & Q1); [|exact I].
  destruct c2. { apply (F (NFloat F32 (f_inf F32)) s_inff32 s2 A6 Q1); [apply (nl_word_suffix F32 s_inf f_inf); auto|exact H]. } subst s2.
  apply bind_ok in H as (c1 & s1 & H1 & H). apply consume_ident_ok with (T := T) in H1 as (A7 & Q1); [|exact I].
  destruct c1. { apply (F (NFloat F64 (f_inf F64)) s_inff64 s1 A7 Q1); [apply (nl_word_suffix F64 s_inf f_inf); auto|exact H]. } subst s1.
  apply bind_ok in H as (c1 & s1 & H1 & H). apply consume_ident_ok with (T := T) in H1 as (A8 & Q1); [|exact I].
  apply bind_ok in H as (c2 & s2 & H2 & H).
  destruct c1. { apply ret_ok in H2 as [-> ->]. apply (F (NFloat F32 (f_nan F32)) s_NaN s1 A8 Q1); [apply nl_word; auto|exact H]. } subst s1.
  apply consume_ident_ok with (T := T) in H2 as (A9 & Q1); [|exact I].
  destruct c2. { apply (F (NFloat F32 (f_nan F32)) s_NaNf32 s2 A9 Q1); [apply (nl_word_suffix F32 s_NaN f_nan); auto|exact H]. } subst s2.
  apply bind_ok in H as (c1 & s1 & H1 & H). apply consume_ident_ok with (T := T) in H1 as (A10 & Q1); [|exact I].
  destruct c1. { apply (F (NFloat F64 (f_nan F64)) s_NaNf64 s1 A10 Q1); [apply (nl_word_suffix F64 s_NaN f_nan); auto|exact H]. } subst s1.
  apply bind_ok in H as (id & s1 & H1 & H). assert (TR1 : tracked s1) by (eapply keeps_ok; [|exact TR|exact H1]; kp). apply skip_identifier_ok with (T := T) in H1 as (A11 & Q1); [|exact I].
  destruct id as [n|].
  - (* a name *)
    destruct Q1 as (ti & Q1 & HI). apply bind_ok in H as (z & s2 & H2 & H).
    assert (TR2 := keeps_ok _ _ _ _ keeps_skip_ws TR1 H2).
    apply skip_ws_ok with (T := T) in H2 as (A12 & w & Q2 & L2); [|apply A11].
    assert (AA : adv T s s2) by (eapply adv_trans; eassumption).
    destruct (any_struct_ok T s2 x s') as (D & C); [apply AA|exact TR2|rewrite (adv_ext _ _ _ AA); assumption|rewrite (adv_nt _ _ _ AA); assumption|exact H|].
    split; [eapply dok_trans; [apply adv_dok; exact AA|assumption]|]. destruct C as [(-> & QR & _)|(t & w' & d & Q & L & HD & HV)].
    + exists ti, w, 0%nat. rewrite Q1, Q2, QR. split; [reflexivity|]. split; [assumption|]. split; [|apply within_0].
      apply va_atom. now apply at_name with n.
    + rewrite (adv_lim _ _ _ AA) in HD.
      assert (LW : layout w).
      { eapply lay_solid; [exact L2|]. rewrite Q.
        destruct HV as [(t' & d' & HP & _)|(t' & d' & HP & _)]; inversion HP; subst; discriminate. }
      exists ((ti ++ w) ++ t), w', d. split; [rewrite Q1, Q2, Q; flat; reflexivity|]. split; [assumption|]. split; [|assumption].
      destruct HV as [(t' & d' & HP & (l & -> & HS) & ->)|(t' & d' & HP & (l & -> & HS) & ->)].
      * eapply va_tuple; [|exact HS|exact HP]. right. exists ti, n, w. auto.
      * eapply va_struct; [|exact HS|exact HP]. right. exists ti, n, w. auto.
  - subst s1. apply bind_ok in H as (c & s1 & H1 & H). unfold peek_char_or_eof in H1.
    destruct (rest s) as [|c0 r] eqn:HR; [discriminate|]. injection H1 as -> <-.
    assert (K : forall (m : M value) R, reads_in false m R -> m s = Ok x s' -> (forall t d, R x t d -> vacc e b x t d) ->
      dok T s s' /\ exists t w d, rest s = t ++ w ++ rest s' /\ lay w (rest s') /\ vacc e b x t d /\ within d (lim s)).
    { intros m R HM Q HW. destruct (proj2 HM T s x s' I TR HE HN Q) as (D & t & w & d & Q' & L & HV & HD). split; [assumption|].
      exists t, w, d. auto. }
    rewrite <- HR.
    destruct (c =? c_lp) eqn:CLP.
    { apply N.eqb_eq in CLP. subst c. destruct (any_struct_ok T s x s' I TR HE HN H) as (D & [(_ & _ & C)|(t & w' & d & Q & L & HD & HV)]); [now apply C in HR|].
      split; [assumption|]. exists t, w', d. split; [assumption|]. split; [assumption|]. split; [|assumption].
      destruct HV as [(t' & d' & HP & (l & -> & HS) & ->)|(t' & d' & HP & (l & -> & HS) & ->)].
      - apply (va_tuple e b l [] t' t d'); [now left|assumption|assumption].
      - apply (va_struct e b l [] t' t d'); [now left|assumption|assumption]. }
    destruct (c =? c_lb).
    { eapply K; [|exact H|].
      - apply de_seq_ok. apply seq_body_ok with (f := XSeq). apply ANY.
      - intros t d (w1 & t1 & w2 & d1 & -> & L1 & L2 & (l & -> & HS) & ->). now apply va_seq. }
    destruct (c =? c_lc).
    { eapply K; [|exact H|].
      - apply de_map_ok. apply map_body_ok with (f := XMap); apply ANY.
      - intros t d (w1 & t1 & w2 & d1 & -> & L1 & L2 & (l & -> & HS) & ->). now apply va_map. }
    destruct (_ || _ || _ || _ || _).
    { eapply K; [|exact H|intros t d V; exact V].
      eapply reads_in_weaken; [|apply reads_in_total; [apply total_any_number_or_bytes|kp]]. intros z t d [LX ->]. now apply va_atom, lexes_atom. }
    destruct (_ || _).
    { eapply K; [|exact H|intros t d V; exact V]. apply reads_in_map.
      eapply reads_in_weaken; [|apply reads_in_total; [apply total_parse_string|kp]]. intros z t d [LX ->]. now apply va_atom, at_str, lexes_string. }
    destruct (c =? c_sq); [|now apply fail_ok in H].
    eapply K; [|exact H|intros t d V; exact V]. apply reads_in_map.
    eapply reads_in_weaken; [|apply reads_in_total; [apply total_parse_char|kp]]. intros z t d [LX ->]. now apply va_atom, at_char, lexes_char.
Qed.
End Any.

Lemma struct_type_ready u p s t s1 : ready s -> check_struct_type u p s = Ok t s1 -> ready s1.
Proof.
  intros RD H. unfold check_struct_type, bind, get_cursor_m in H. destruct (check_struct_type_inner u p s) as [t' s'| | |]; [|discriminate..].
  cbn in H. injection H as <- <-. exact RD.
Qed.
Theorem de_any_ok f : forall b, reads_el b (de_any f) (vacc e b).
Proof.
  induction f as [|f IH]; [split; [apply keeps_any|discriminate]|]. intros b. split; [apply keeps_any|]. intros T s x s' I RD HE HN H. assert (TR := ready_tracked _ RD). cbn [de_any] in H.
  apply bind_ok in H as (z & s1 & H1 & H). apply get_ok in H1 as [-> ->]. rewrite HN in H. destruct b.
  - apply bind_ok in H as (rp & s1 & H1 & H). apply check_char_ok in H1 as [-> C].
    destruct rp.
    { apply bind_ok in H as (u & s1 & H1 & H). apply ret_ok in H as [-> ->].
      unfold de_unit in H1. apply bind_ok in H1 as (z & s2 & H2 & H1). apply get_ok in H2 as [-> ->]. rewrite HN in H1.
      apply bind_ok in H1 as (q & s2 & H2 & H1). apply ret_ok in H2 as [-> ->]. apply modify_ok in H1. subst s1.
      split; [now apply dok_nt|]. exists [], [], 0%nat. split; [reflexivity|]. split; [apply lay_nil|].
      split; [apply va_unit|apply within_0]. }
    apply bind_ok in H as (t & s1 & H1 & H). assert (TR1 := keeps_ok _ _ _ _ (keeps_struct_type _ _) TR H1). assert (RD1 : ready s1) by (eapply struct_type_ready; eassumption). destruct (check_struct_type_ok _ _ T s t s1 I H1) as [A1 QR].
    assert (NS : nt s1 = true) by (rewrite (adv_nt _ _ _ A1); assumption).
    assert (ES : ext s1 = e) by (rewrite (adv_ext _ _ _ A1); assumption).
    assert (K : forall (m : M value) R, reads_in true m R -> m s1 = Ok x s' -> (forall t d, R x t d -> vacc e true x t d) ->
      dok T s s' /\ exists t w d, rest s = t ++ w ++ rest s' /\ lay w (rest s') /\ vacc e true x t d /\ within d (lim s)).
    { intros m R HM Q HW. destruct (proj2 HM T s1 x s' (adv_inv _ _ _ A1) TR1 ES NS Q) as (D & t' & w & d & Q' & L & HV & HD).
      split; [eapply dok_trans; [apply adv_dok; exact A1|assumption]|]. rewrite QR in Q'. rewrite (adv_lim _ _ _ A1) in HD.
      exists t', w, d. auto. }
    assert (TUP : de_tuple (l <- seq_all c_rp (de_any f) ;; ret (XSeq l)) s1 = Ok x s' ->
      dok T s s' /\ exists t w d, rest s = t ++ w ++ rest s' /\ lay w (rest s') /\ vacc e true x t d /\ within d (lim s)).
    { intros Q. eapply K; [|exact Q|].
      - apply de_tuple_ok. apply seq_body_ok with (f := XSeq). apply IH.
      - intros t0 d0 (t' & d' & HP & (l & -> & HS) & ->). now apply va_tuple_bare with t'. }
    assert (REST : (modify (set_nt false) ;;; any_main (de_any f)) s1 = Ok x s' ->
      dok T s s' /\ exists t w d, rest s = t ++ w ++ rest s' /\ lay w (rest s') /\ vacc e true x t d /\ within d (lim s)).
    { intros Q. apply bind_ok in Q as (u & s2 & H2 & Q). apply modify_ok in H2. subst s2.
      apply (any_main_ok (de_any f) IH true T) in Q as (D & t' & w & d & Q' & L & HV & HD); [|apply A1|exact RD1|assumption|reflexivity].
      split; [eapply dok_trans; [apply adv_dok; exact A1|now apply dok_from_nt]|].
      cbn [rest set_nt lim] in *. rewrite QR in Q'. rewrite (adv_lim _ _ _ A1) in HD. exists t', w, d. auto. }
    destruct t; try (now apply TUP); try (now apply REST).
    eapply K; [|exact H|].
    + apply struct_after_name_ok. apply map_body_ok with (f := XMap); [apply reads_in_el, any_key_ok|apply IH].
    + intros t0 d0 (t' & d' & HP & (l & -> & HS) & ->). now apply va_struct_bare with t'.
  - now apply (any_main_ok (de_any f) IH false T) in H.
Qed.
Theorem any_value_ok b : reads_el b any_value (vacc e b).
Proof.
  split; [apply keeps_any_value|]. intros T s x s' I RD HE HN H. apply bind_ok in H as (r & s1 & H1 & H). apply src_ok in H1 as [-> ->].
  eapply de_any_ok; eassumption.
Qed.

(** ** Typed values *)
Lemma parse_bool_ok b : reads_in b parse_bool (fun x t d => t = (if x : bool then s_true else s_false) /\ d = 0%nat).
Proof.
  split; [kp|]. intros T s x s' I _ HE HN H. unfold parse_bool in H.
  apply bind_ok in H as (c1 & s1 & H1 & H). apply consume_ident_ok with (T := T) in H1 as (A1 & Q1); [|exact I].
  destruct c1.
  { apply ret_ok in H as [-> ->]. split; [now apply adv_dok|]. exists s_true, [], 0%nat.
    split; [exact Q1|]. split; [apply lay_nil|]. split; [auto|apply within_0]. }
  subst s1. apply bind_ok in H as (c1 & s1 & H1 & H). apply consume_ident_ok with (T := T) in H1 as (A2 & Q1); [|exact I].
  destruct c1; [|now apply fail_ok in H].
  apply ret_ok in H as [-> ->]. split; [now apply adv_dok|]. exists s_false, [], 0%nat.
  split; [exact Q1|]. split; [apply lay_nil|]. split; [auto|apply within_0].
Qed.
Lemma de_bytes_ok b : reads_in b de_bytes (fun l t d => (lexes byte_string l t /\ d = 0%nat) \/
  enclosed c_lb c_rb (fun l t d => sepd byte_text l t d) l t d).
Proof.
  split; [apply keeps_bytes|]. intros T s l s' I TR HE HN H. unfold de_bytes in H. apply bind_ok in H as (c & s1 & H1 & H). apply check_char_ok in H1 as [-> _].
  destruct c.
  - apply bind_ok in H as (l1 & s1 & H1 & H). apply ret_ok in H as [-> ->].
    assert (HS : reads_in false (seq_all c_rb (p <- integer (Some U8) ;; ret (Z.to_N (snd p)))) (spaced (fun l t d => sepd byte_text l t d))).
    { split; [apply keeps_seq_all; kq|]. intros T1 z l2 z' I1 TR1 HE1 HN1 Q.
      apply seq_all_ok with (R := byte_text) (T := T1) in Q as (D & w & t & w' & d & Q & L & L' & HS & HD); auto.
      - split; [assumption|]. exists (w ++ t), w', d. split; [rewrite Q; flat; reflexivity|]. split; [now left|].
        split; [|assumption]. exists w, t. auto.
      - apply reads_in_el, reads_in_map. eapply reads_in_weaken; [|apply reads_in_total; [apply total_integer|kp]].
        intros [k z0] t d [LX ->]. apply lexes_integer in LX as [IR IT]. cbn [snd].
        unfold in_range in IR. change (ik_min U8) with 0%Z in IR. change (ik_max U8) with 255%Z in IR.
        split; [reflexivity|]. split; [|lia]. rewrite Z2N.id by lia. assumption. }
    destruct (proj2 (de_seq_ok b _ _ HS) T s l1 s1 I TR HE HN H1) as (D & t & w & d & Q & L & HV & HD).
    split; [assumption|]. exists t, w, d. auto.
  - destruct (proj2 (reads_in_total b _ total_byte_string ltac:(kp)) T s l s' I TR HE HN H) as (D & t & w & d & Q & L & HV & HD).
    split; [assumption|]. exists t, w, d. auto.
Qed.
Lemma de_unit_ok b : reads_in b de_unit (fun _ t d => t = (if b then [] else s_unit) /\ d = 0%nat).
Proof.
  split; [apply keeps_unit|]. intros T s u s' I _ HE HN H. unfold de_unit in H. apply bind_ok in H as (z & s1 & H1 & H). apply get_ok in H1 as [-> ->].
  apply bind_ok in H as (c & s1 & H1 & H). rewrite HN in H1. destruct c; [|now apply fail_ok in H].
  apply modify_ok in H. subst s'. destruct b.
  - apply ret_ok in H1 as [_ ->]. split; [now apply dok_nt|]. exists [], [], 0%nat.
    split; [reflexivity|]. split; [apply lay_nil|]. split; [auto|apply within_0].
  - apply consume_str_ok with (T := T) in H1 as (A1 & Q1); [|exact I].
    split; [eapply dok_trans; [apply adv_dok; exact A1|apply dok_nt, A1]|]. exists s_unit, [], 0%nat.
    split; [exact Q1|]. split; [apply lay_nil|]. split; [auto|apply within_0].
Qed.

Lemma strs_eqb_true a : forall b, strs_eqb a b = true -> a = b.
Proof.
  induction a as [|x a IH]; intros [|y b] H; cbn in H; try discriminate; [reflexivity|].
  apply andb_prop in H as [H1 H2]. apply str_eqb_eq in H1. f_equal; auto.
Qed.
Lemma any_number_ok T s n s' : inv T s -> any_number s = Ok n s' ->
  adv T s s' /\ exists t, rest s = t ++ rest s' /\ num_lit n t.
Proof.
  intros I H. assert (A1 := total_ok _ _ _ _ _ total_any_number I H). split; [assumption|].
  eapply any_number_sound; eassumption.
Qed.
Lemma range_prologue_ok T name fields s o s' : inv T s -> range_prologue name fields s = Ok o s' ->
  adv T s s' /\ match o with
                | Some ns => exists t, rest s = t ++ rest s' /\ range_syntax name fields ns t
                | None => s' = s
                end.
Proof.
  intros I H. split; [eapply total_ok; [apply total_range_prologue|exact I|exact H]|].
  unfold range_prologue in H. apply bind_ok in H as (r & s1 & H1 & H). apply src_ok in H1 as [-> ->]. cbv zeta in H.
  destruct ((str_eqb name s_Range && strs_eqb fields [s_start; s_end]
      || str_eqb name s_RangeInclusive && (strs_eqb fields [s_start; s_end] || strs_eqb fields [s_start; s_last]))
     && num_start (rest s)) eqn:C.
  { apply andb_prop in C as [C _].
    apply bind_ok in H as (a & s1 & H1 & H). apply any_number_ok with (T := T) in H1 as (A1 & ta & Q1 & X1); [|exact I].
    apply bind_ok in H as (i & s2 & H2 & H). apply consume_str_ok with (T := T) in H2 as (A2 & Q2); [|apply A1].
    apply bind_ok in H as (d & s3 & H3 & H). destruct d; [|now apply fail_ok in H]. cbn [negb] in H.
    destruct i; cbn [negb andb] in H.
    - apply ret_ok in H3 as [_ ->]. destruct (str_eqb name s_Range) eqn:NR; [now apply fail_ok in H|].
      cbn [orb] in C. apply andb_prop in C as [C1 C2]. apply str_eqb_eq in C1. subst name.
      apply bind_ok in H as (b & s4 & H4 & H). apply any_number_ok with (T := T) in H4 as (A4 & tb & Q4 & X4); [|apply A2].
      apply ret_ok in H as [-> ->]. exists (ta ++ s_dotdoteq ++ tb). split; [rewrite Q1, Q2, Q4; now rewrite <- !app_assoc|].
      apply orb_prop in C2 as [C2|C2]; apply strs_eqb_true in C2; subst fields; apply rs_inclusive; auto.
    - apply consume_str_ok with (T := T) in H3 as (A3 & Q3); [|apply A2]. subst s2.
      destruct (str_eqb name s_RangeInclusive) eqn:NR; [now apply fail_ok in H|].
      cbn [andb] in C. rewrite orb_false_r in C. apply andb_prop in C as [C1 C2]. apply str_eqb_eq in C1. apply strs_eqb_true in C2. subst.
      apply bind_ok in H as (b & s4 & H4 & H). apply any_number_ok with (T := T) in H4 as (A4 & tb & Q4 & X4); [|apply A3].
      apply ret_ok in H as [-> ->]. exists (ta ++ s_dotdot ++ tb). split; [rewrite Q1, Q3, Q4; now rewrite <- !app_assoc|].
      apply rs_range; auto. }
  clear C. apply bind_ok in H as (sp & s1 & H1 & H).
  assert (SP : s1 = s /\ (sp = true -> fields = [s_start] /\ name = s_RangeFrom)).
  { destruct (strs_eqb fields [s_start] && str_eqb name s_RangeFrom && negb (is_nil (rest s))) eqn:C.
    - apply andb_prop in C as [C _]. apply andb_prop in C as [C1 C2]. apply strs_eqb_true in C1. apply str_eqb_eq in C2.
      split; [|auto]. destruct (num_start (rest s)); [now apply ret_ok in H1 as [_ ->]|].
      repeat (apply bind_ok in H1 as (? & ? & ?H & H1);
              match goal with Q : check_ident _ _ = Ok ?b _ |- _ => rewrite check_ident_eq in Q; injection Q as ? <-; destruct b;
                [now apply ret_ok in H1 as [_ ->]|] end).
      rewrite check_ident_eq in H1. now injection H1 as _ <-.
    - apply ret_ok in H1 as [-> ->]. split; [reflexivity|discriminate]. }
  destruct SP as [-> SP]. destruct sp.
  { destruct (SP eq_refl) as [-> ->].
    apply bind_ok in H as (a & s1' & H1' & H). apply any_number_ok with (T := T) in H1' as (A1 & ta & Q1 & X1); [|exact I].
    apply bind_ok in H as (i & s2 & H2 & H). apply consume_str_ok with (T := T) in H2 as (A2 & Q2); [|apply A1].
    destruct i; [now apply fail_ok in H|]. subst s2.
    apply bind_ok in H as (d & s3 & H3 & H). apply consume_str_ok with (T := T) in H3 as (A3 & Q3); [|apply A1].
    destruct d; [|now apply fail_ok in H]. apply ret_ok in H as [-> ->]. exists (ta ++ s_dotdot).
    split; [rewrite Q1, Q3; now rewrite <- app_assoc|]. now apply rs_from. }
  clear SP H1. destruct (strs_eqb fields [s_end] && str_eqb name s_RangeTo
            && (starts_with s_dotdoteq (rest s) || starts_with s_dotdot (rest s))) eqn:C.
  { apply andb_prop in C as [C D]. apply andb_prop in C as [C1 C2]. apply strs_eqb_true in C1. apply str_eqb_eq in C2. subst.
    apply bind_ok in H as (i & s2 & H2 & H). assert (H2' := H2). rewrite consume_str_eq in H2'.
    apply consume_str_ok with (T := T) in H2 as (A2 & Q2); [|exact I].
    destruct i; [now apply fail_ok in H|]. subst s2.
    apply bind_ok in H as (d & s3 & H3 & H). assert (H3' := H3). rewrite consume_str_eq in H3'.
    apply consume_str_ok with (T := T) in H3 as (A3 & Q3); [|exact I].
    apply bind_ok in H as (b & s4 & H4 & H). apply any_number_ok with (T := T) in H4 as (A4 & tb & Q4 & X4); [|apply A3].
    apply ret_ok in H as [-> ->]. destruct d.
    - exists (s_dotdot ++ tb). split; [rewrite Q3, Q4; now rewrite <- app_assoc|]. now apply rs_to.
    - exfalso. unfold starts_with in D.
      destruct (strip_prefix s_dotdoteq (rest s)); [discriminate H2'|]. destruct (strip_prefix s_dotdot (rest s)); discriminate. }
  clear C. destruct ((strs_eqb fields [s_end] || strs_eqb fields [s_last]) && str_eqb name s_RangeToInclusive
            && (starts_with s_dotdoteq (rest s) || starts_with s_dotdot (rest s))) eqn:C.
  { apply andb_prop in C as [C D]. apply andb_prop in C as [C1 C2]. apply str_eqb_eq in C2. subst.
    apply bind_ok in H as (i & s2 & H2 & H). apply consume_str_ok with (T := T) in H2 as (A2 & Q2); [|exact I].
    destruct i; cbn [negb] in H.
    2:{ apply bind_ok in H as (d & s3 & H3 & H). now apply fail_ok in H. }
    apply bind_ok in H as (b & s4 & H4 & H). apply any_number_ok with (T := T) in H4 as (A4 & tb & Q4 & X4); [|apply A2].
    apply ret_ok in H as [-> ->]. exists (s_dotdoteq ++ tb). split; [rewrite Q2, Q4; now rewrite <- app_assoc|].
    apply orb_prop in C1 as [C1|C1]; apply strs_eqb_true in C1; subst; apply rs_to_inclusive; auto. }
  now apply ret_ok in H as [-> ->].
Qed.

Section Step.
Variable tenv : nat -> ty.
Variable rec : ty -> M val.
Hypothesis REC : forall b t, reads_el b (rec t) (acc e tenv b t).
Lemma KREC t : keeps (rec t).
Proof. apply (REC false). Qed.
#[local] Hint Resolve KREC : keeps.

Notation unknown := (fun t d => exists x, vacc e false x t d).
Lemma any_unknown_ok : reads_el false any_value (fun _ : value => unknown).
Proof. eapply reads_in_weaken; [|apply any_value_ok]. intros x t d V. exists x. exact V. Qed.

Lemma lex_ok {A} b T (m : M A) (f : A -> val) : total m -> keeps m -> (forall a t, lexes m a t -> leaf T (f a) t) ->
  reads_in b (a <- m ;; ret (f a)) (acc e tenv b T).
Proof.
  intros TM KM H. apply reads_in_map. eapply reads_in_weaken; [|now apply reads_in_total].
  intros a t d [L ->]. apply ac_leaf. auto.
Qed.

Lemma de_raw_ok b : reads_el b (x <- de_raw ;; ret (VRaw x)) (acc e tenv b TRaw).
Proof.
  split; [kq|]. intros T s v s' I RD HE HN H. apply bind_ok in H as (ron & s1 & H1 & H). apply ret_ok in H as [-> ->].
  assert (D0 : dok T s s1).
  { assert (W := safe_de_raw T (fun _ => True) s I Logic.I). Transparent wp. unfold wp in W. Opaque wp. now rewrite H1 in W. }
  split; [assumption|].
  unfold de_raw in H1. apply bind_ok in H1 as (before & s2 & H2 & H1). injection H2 as <- <-.
  apply bind_ok in H1 as (u & s2 & H2 & H1). assert (RD2 := skip_ws_ready _ _ _ (ready_tracked _ RD) H2). apply skip_ws_ok with (T := T) in H2 as (A2 & w & Q2 & L2); [|exact I].
  apply bind_ok in H1 as (x & s3 & H3 & H1).
  apply (proj2 (any_value_ok b) T) in H3 as (D3 & t & w3 & d & Q3 & L3 & HV & HD);
    [|apply A2|exact RD2|rewrite (adv_ext _ _ _ A2); assumption|rewrite (adv_nt _ _ _ A2); assumption].
  apply bind_ok in H1 as (u' & s4 & H4 & H1). apply skip_ws_ok with (T := T) in H4 as (A4 & w4 & Q4 & L4); [|apply D3].
  apply bind_ok in H1 as (after & s5 & H5 & H1). apply src_ok in H5 as [-> ->].
  apply bind_ok in H1 as (un & s5 & H5 & H1). unfold has_unclosed_line_comment in H5. injection H5 as <- <-.
  match goal with H : (if ?b then _ else _) _ = _ |- _ => destruct b; [now apply fail_ok in H|] end.
  apply bind_ok in H1 as (ron' & s5 & H5 & H1). unfold slice_before in H5.
  destruct (Nat.leb _ _); [|discriminate]. apply of_slice_ok in H5 as [B ->].
  destruct (from_str opts_default any_value ron'); try discriminate H1. apply ret_ok in H1 as [<- <-].
  destruct RD as (p & Hp & LP).
  rewrite Hp, Q2, Q3, Q4 in B.
  assert (AE : p ++ w ++ t ++ w3 ++ w4 ++ rest s1 = (p ++ w ++ t ++ w3 ++ w4) ++ rest s1) by (flat; reflexivity).
  assert (B' : btake (blen ((p ++ w ++ t ++ w3 ++ w4) ++ rest s1) - blen (rest s1)) ((p ++ w ++ t ++ w3 ++ w4) ++ rest s1) = Some ron)
    by (rewrite <- AE; exact B).
  rewrite blen_app, Nat.add_sub, btake_app in B'. injection B' as <-.
  rewrite Q4 in L3. assert (L : lay (w3 ++ w4) (rest s1)) by now apply lay_app.
  rewrite (adv_lim _ _ _ A2) in HD.
  exists (w ++ t ++ w3 ++ w4), [], d. split; [rewrite Q2, Q3, Q4; flat; reflexivity|]. split; [apply lay_nil|].
  split; [|assumption]. apply ac_raw with (x := x); [| |eapply lay_final; exact L|assumption].
  - destruct LP as [[L0 F]|[_ LP]]; [|now left]. right. split; [|assumption]. rewrite Q2, Q3, Q4 in L0.
    apply app_eq_nil in L0 as [-> L0]. apply app_eq_nil in L0 as [-> L0]. apply app_eq_nil in L0 as [-> L0]. now apply app_eq_nil in L0 as [-> _].
  - destruct L2 as [L2|[L2 F]]; [now left|]. right. split; [|assumption]. rewrite Q3, Q4 in L2.
  apply app_eq_nil in L2 as [-> L2]. apply app_eq_nil in L2 as [-> L2]. now apply app_eq_nil in L2 as [-> _].
Qed.
Lemma de_unit_struct_ok b name : reads_in b (de_unit_struct name ;;; ret (VUnitStruct name)) (acc e tenv b (TUnitStruct name)).
Proof.
  split; [kq|]. intros T s v s' I TR HE HN H. apply bind_ok in H as (u & s1 & H1 & H). apply ret_ok in H as [-> ->].
  unfold de_unit_struct in H1. apply bind_ok in H1 as (full & s2 & H2 & H1). destruct full.
  { apply ret_ok in H1 as [_ ->]. destruct (str_eqb name s_RangeFull) eqn:NF; [|now apply ret_ok in H2 as [? _]].
    apply str_eqb_eq in NF. subst name. apply consume_str_ok with (T := T) in H2 as (A1 & Q1); [|exact I].
    split; [now apply adv_dok|]. exists s_dotdot, [], 0%nat. split; [exact Q1|]. split; [apply lay_nil|].
    split; [apply ac_range_full|apply within_0]. }
  assert (Q2 : s2 = s).
  { destruct (str_eqb name s_RangeFull); [|now apply ret_ok in H2 as [_ ->]].
    now apply consume_str_ok with (T := T) in H2 as (_ & ?). }
  subst s2. apply bind_ok in H1 as (z & s2 & H3 & H1). apply get_ok in H3 as [-> ->].
  apply bind_ok in H1 as (c & s2 & H3 & H1). rewrite HN in H3. destruct b.
  - apply ret_ok in H3 as [-> ->]. apply modify_ok in H1. subst s1. split; [now apply dok_nt|].
    exists [], [], 0%nat. split; [reflexivity|]. split; [apply lay_nil|]. split; [apply ac_unit_struct_bare|apply within_0].
  - apply consume_struct_name_ok with (T := T) in H3 as (A3 & C); [|exact I]. destruct c.
    + apply modify_ok in H1. subst s1. destruct C as (t & Q & L).
      split; [eapply dok_trans; [apply adv_dok; exact A3|apply dok_nt, A3]|].
      exists t, [], 0%nat. split; [exact Q|]. split; [apply lay_nil|]. split; [now apply ac_unit_struct_name|apply within_0].
    + destruct C as (-> & XE). destruct (proj2 (de_unit_ok false) T s u s1 I TR HE HN H1) as (D & t & w & d & Q & L & (-> & ->) & HD).
      split; [assumption|]. exists s_unit, w, 0%nat. split; [exact Q|]. split; [assumption|]. split; [|assumption].
      apply ac_unit_struct. now rewrite HE in XE.
Qed.

(** a name in front of a parenthesised body *)
Lemma named_ok {A} b name (body : M A) R : reads_in b body R ->
  reads_in b (s <- get ;; (if nt s then ret false else consume_struct_name name) ;;; body)
    (fun a t d => exists tn t', t = tn ++ t' /\ head_text e b false name tn /\ R a t' d).
Proof.
  intros [KB HB]. split; [kq|]. intros T s a s' I TR HE HN H. apply bind_ok in H as (z & s2 & H1 & H). apply get_ok in H1 as [-> ->].
  apply bind_ok in H as (c & s2 & H1 & H). assert (TR1 : tracked s2) by (eapply keeps_ok; [|exact TR|exact H1]; kq). rewrite HN in H1. destruct b.
  - apply ret_ok in H1 as [_ ->]. destruct (HB T s a s' I TR HE HN H) as (D & t & w & d & Q & L & HV & HD).
    split; [assumption|]. exists t, w, d. split; [assumption|]. split; [assumption|]. split; [|assumption].
    exists [], t. cbn. auto.
  - apply struct_name_ok with (T := T) in H1 as (A1 & tn & Q1 & HN1); [|assumption|assumption].
    destruct (HB T s2 a s') as (D & t & w & d & Q & L & HV & HD); auto.
    + apply A1.
    + now rewrite (adv_ext _ _ _ A1).
    + now rewrite (adv_nt _ _ _ A1).
    + split; [eapply dok_trans; [apply adv_dok; exact A1|exact D]|]. exists (tn ++ t), w, d.
      split; [rewrite Q1, Q; flat; reflexivity|]. split; [assumption|]. rewrite (adv_lim _ _ _ A1) in HD.
      split; [|assumption]. exists tn, t. auto.
Qed.
(** layout in front, when the body cannot be empty *)
Lemma spaced_ok {A} b (body : M A) R : reads_in b body R -> (forall a d, ~ R a [] d) ->
  reads_in b (skip_ws ;;; body) (spaced R).
Proof.
  intros [KB HB] NE. split; [kq|]. intros T s a s' I TR HE HN H. apply bind_ok in H as (u & s2 & H1 & H). assert (TR1 := keeps_ok _ _ _ _ keeps_skip_ws TR H1).
  apply skip_ws_ok with (T := T) in H1 as (A1 & w1 & Q1 & L1); [|exact I].
  destruct (HB T s2 a s') as (D & t & w & d & Q & L & HV & HD); auto.
  - apply A1.
  - now rewrite (adv_ext _ _ _ A1).
  - now rewrite (adv_nt _ _ _ A1).
  - split; [eapply dok_trans; [apply adv_dok; exact A1|exact D]|]. exists (w1 ++ t), w, d.
    split; [rewrite Q1, Q; flat; reflexivity|]. split; [assumption|]. rewrite (adv_lim _ _ _ A1) in HD.
    split; [|assumption]. exists w1, t. split; [reflexivity|]. split; [|assumption].
    eapply lay_solid; [exact L1|]. rewrite Q. destruct t; [now apply NE in HV|discriminate].
Qed.

Lemma struct_ok b deny name fields : reads_in b (de_step tenv rec (TStruct deny name fields)) (acc e tenv b (TStruct deny name fields)).
Proof.
  split; [apply keeps_step, KREC|]. intros T s v s' I TR HE HN H. cbn [de_step] in H. apply bind_ok in H as (o & s1 & H1 & H).
  apply range_prologue_ok with (T := T) in H1 as (A1 & C); [|exact I]. destruct o as [ns|].
  - destruct C as (t & Q & RS). destruct (range_fields _ ns) as [l|] eqn:RF; [|now apply fail_ok in H].
    apply ret_ok in H as [-> ->]. split; [now apply adv_dok|]. exists t, [], 0%nat. split; [exact Q|]. split; [apply lay_nil|].
    split; [|apply within_0]. eapply ac_range; eassumption.
  - subst s1. clear A1.
    apply bind_ok in H as (z & s2 & H1 & H). apply get_ok in H1 as [-> ->].
    apply bind_ok in H as (c & s1 & H1 & H). apply bind_ok in H as (u & s2 & H2 & H).
    assert (TR2 : tracked s2).
    { eapply keeps_ok; [apply keeps_skip_ws| |exact H2]. eapply keeps_ok; [|exact TR|exact H1]. kq. }
    assert (SB := struct_after_name_ok b name _ _ (struct_body_text rec deny fields (is_option tenv) (acc e tenv false)
                    (fun t d => exists x, vacc e false x t d) (VStruct name) (REC false) any_unknown_ok)).
    assert (HS : adv T s s1 /\ exists tn, rest s = tn ++ rest s1 /\ head_text e b false name tn).
    { rewrite HN in H1. destruct b.
      - apply ret_ok in H1 as [_ ->]. split; [now apply adv_refl|]. exists []. split; reflexivity.
      - apply struct_name_ok with (T := T) in H1 as (A1 & tn & Q1 & HN1); auto. split; [assumption|]. exists tn. auto. }
    destruct HS as (A1 & tn & Q1 & HH).
    apply skip_ws_ok with (T := T) in H2 as (A2 & w2 & Q2 & L2); [|apply A1].
    assert (A3 := adv_trans _ _ _ _ A1 A2).
    destruct (proj2 SB T s2 v s') as (D & t & w & d & Q & L & (t' & d' & PA & (fs & ents & -> & HS & SO) & ->) & HD); auto.
    { apply A2. } { now rewrite (adv_ext _ _ _ A3). } { now rewrite (adv_nt _ _ _ A3). }
    split; [eapply dok_trans; [apply adv_dok; exact A3|exact D]|]. rewrite (adv_lim _ _ _ A3) in HD.
    destruct b.
    + cbn in HH. subst tn. cbn [app] in Q1. inversion PA; subst.
      destruct L2 as [L2|[L2 F]].
      * exists (w2 ++ w0 ++ t'), w, (S d'). split; [rewrite Q1, Q2, Q; flat; reflexivity|]. split; [assumption|].
        split; [|assumption]. apply ac_struct with (tn := []) (ents := ents) (t := t') (t' := w2 ++ w0 ++ t'); [reflexivity|assumption|assumption|].
        rewrite app_assoc. apply pa_bare. now apply layout_app.
      * rewrite Q in L2. apply app_eq_nil in L2 as [L2 L3]. apply app_eq_nil in L2 as [-> ->]. apply app_eq_nil in L3 as [-> L3].
        exists [], w2, (S d'). split; [rewrite Q1, Q2, Q; reflexivity|]. split; [now right|]. split; [|assumption].
        apply ac_struct with (tn := []) (ents := ents) (t := []) (t' := []); [reflexivity|assumption|assumption|].
        apply (pa_bare [] []). constructor.
    + assert (L2' : layout w2). { eapply lay_solid; [exact L2|]. rewrite Q. inversion PA. discriminate. }
      exists ((tn ++ w2) ++ t), w, (S d'). split; [rewrite Q1, Q2, Q; flat; reflexivity|]. split; [assumption|].
      split; [|assumption]. apply ac_struct with (ents := ents) (t := t'); [|assumption|assumption|assumption].
      cbn in HH |- *. now apply name_acc_gap.
Qed.

Lemma enum_ok b name variants : reads_in b (de_step tenv rec (TEnum name variants)) (acc e tenv b (TEnum name variants)).
Proof.
  split; [apply keeps_step, KREC|]. intros T s v s' I TR HE HN H. cbn [de_step] in H. apply bind_ok in H as (u & s1 & H1 & H). apply modify_ok in H1. subst s1.
  apply map_err_ok in H.
  apply guard_ok with (P := tracked) (b := false) (R := fun v t d => acc e tenv b (TEnum name variants) v t (S d)) (T := T) in H
    as (D & t & w & d & Q & L & HV & HD); auto.
  { split; [now apply dok_from_nt|]. exists t, w, (S d). auto. }
  clear T s v s' I TR HE HN H. split; [kq|]. intros T s v s' I TR HE HN H.
  apply bind_ok in H as (u1 & s1 & H1 & H). assert (TR1 := keeps_ok _ _ _ _ keeps_skip_ws TR H1).
  apply skip_ws_ok with (T := T) in H1 as (A1 & w0 & Q1 & L1); [|exact I].
  apply bind_ok in H as ([k va] & s2 & H2 & H). assert (TR2 : tracked s2) by (eapply keeps_ok; [|exact TR1|exact H2]; kq).
  apply guard_ok with (P := tracked) (b := false) (R := fun p t d => ident_lit t (fst p) /\ assoc (fst p) variants = Some (snd p) /\ d = 0%nat)
    (T := T) in H2 as (D2 & tk & wk & dk & Q2 & Lk & (IL & AS & ->) & HD2);
    [|auto| |apply A1|exact TR1|now rewrite (adv_ext _ _ _ A1)|now rewrite (adv_nt _ _ _ A1)]; swap 1 2.
  { split; [kq|]. intros T' z a z' I' TR' HE' HN' HZ. apply bind_ok in HZ as (k' & z1 & Z1 & HZ).
      destruct (proj2 (de_identifier_ok false) T' z k' z1 I' TR' HE' HN' Z1) as (DZ & t' & w' & d' & Q' & L' & (IL' & ->) & HD').
      destruct (assoc k' variants) as [wa|] eqn:AK; [|now apply fail_ok in HZ]. apply ret_ok in HZ as [-> ->].
      split; [assumption|]. exists t', w', 0%nat. cbn [fst snd]. auto 10. }
  cbn [fst snd] in *.
  assert (L0 : layout w0).
  { eapply lay_solid; [exact L1|]. rewrite Q2. destruct tk; [inversion IL|discriminate]. }
  assert (D12 : dok T s s2) by (eapply dok_trans; [apply adv_dok; exact A1|exact D2]).
  assert (HE2 : ext s2 = e) by now rewrite (dok_ext _ _ _ D12).
  assert (HN2 : nt s2 = false) by now apply (dok_nt0 _ _ _ D12).
  assert (HL2 : lim s2 = lim s) by apply (dok_lim _ _ _ D12).
  rewrite (adv_lim _ _ _ A1) in HD2.
  assert (Q12 : rest s = w0 ++ tk ++ wk ++ rest s2) by (rewrite Q1, Q2; reflexivity).
  destruct va as [|t0|Ts|deny fields].
  - apply ret_ok in H as [-> ->]. split; [assumption|]. exists (w0 ++ tk), wk, 1%nat.
    split; [rewrite Q12; flat; reflexivity|]. split; [assumption|]. split; [|assumption]. now apply ac_unit_variant.
  - apply bind_ok in H as (z & s3 & H3 & H). apply get_ok in H3 as [-> ->].
    apply bind_ok in H as (u3 & s3 & H3 & H). assert (TR3 := keeps_ok _ _ _ _ keeps_skip_ws TR2 H3). apply skip_ws_ok with (T := T) in H3 as (A3 & w3 & Q3 & L3); [|apply D2].
    apply bind_ok in H as (c & s4 & H4 & H). assert (TR4 : tracked s4) by (eapply keeps_ok; [|exact TR3|exact H4]; kp). apply consume_char_ok with (T := T) in H4 as (A4 & Q4); [|apply A3].
    destruct c; [|now apply fail_ok in H].
    apply bind_ok in H as (u5 & s5 & H5 & H). assert (RD5 := skip_ws_ready _ _ _ TR4 H5). apply skip_ws_ok with (T := T) in H5 as (A5 & w5 & Q5 & L5); [|apply A4].
    apply bind_ok in H as (u6 & s6 & H6 & H). apply modify_ok in H6.
    apply bind_ok in H as (x & s7 & H7 & H).
    assert (A35 := adv_trans _ _ _ _ A3 (adv_trans _ _ _ _ A4 A5)).
    assert (HE5 : ext s5 = e) by (rewrite (adv_ext _ _ _ A35); assumption).
    assert (HL5 : lim s5 = lim s) by (rewrite (adv_lim _ _ _ A35); assumption).
    apply guard_ok with (P := ready) (b := x_unwrap_variant_newtypes e) (R := acc e tenv (x_unwrap_variant_newtypes e) t0) (T := T) in H7
      as (D7 & t & w7 & d & Q7 & L7 & HV & HD7);
      [|auto|apply reads_in_map_err, REC|subst s6; apply A35|subst s6; exact RD5|subst s6; exact HE5|subst s6; cbn [nt set_nt]; now rewrite HE5].
    apply bind_ok in H as (u8 & s8 & H8 & H). apply modify_ok in H8.
    apply bind_ok in H as (c9 & s9 & H9 & H). apply bind_ok in H as (c10 & s10 & H10 & H).
    destruct c10; [|now apply fail_ok in H]. apply ret_ok in H as [-> ->].
    destruct (comma_tail T s8 c9 s9 true s10 c_rp) as (A7 & w8 & T8 & Q8); auto; [subst s8; apply D7|].
    subst s6 s8. cbn [rest set_nt lim] in *.
    assert (L7' : layout w7) by (eapply lay_solid; [exact L7|rewrite Q8; destruct w8; discriminate]).
    split.
    { eapply dok_trans; [exact D12|]. eapply dok_trans; [apply adv_dok; exact A35|]. destruct D7 as (E1 & E2 & E3 & E4 & E5).
      apply adv_dok in A7. destruct A7 as (F1 & F2 & F3 & F4 & F5). cbn in *. unfold dok.
      split; [assumption|]. split; [eapply suf_trans; eassumption|]. split; [congruence|]. split; [congruence|auto]. }
    exists (w0 ++ tk ++ (wk ++ w3) ++ c_lp :: w5 ++ t ++ (w7 ++ w8) ++ [c_rp]), [], (S d).
    split; [rewrite Q12, Q3, Q4, Q5, Q7, Q8; flat; reflexivity|]. split; [apply lay_nil|]. rewrite HL5 in HD7. split; [|assumption].
    rewrite Q4 in L3. apply lay_cons in L3. rewrite Q3, Q4 in Lk.
    assert (Lk' : layout wk) by (eapply lay_solid; [exact Lk|destruct w3; discriminate]).
    apply ac_new_variant with (T := t0); auto.
    + now apply layout_app.
    + eapply lay_solid; [exact L5|]. rewrite Q7, Q8. intros Q. apply app_eq_nil in Q as [_ Q].
      apply app_eq_nil in Q as [_ Q]. now apply app_eq_nil in Q as [_ Q].
    + destruct T8 as [w8 L8|w8 w8' L8 L8']; [constructor; now apply layout_app|].
      rewrite app_assoc. constructor; [now apply layout_app|assumption].
  - apply bind_ok in H as (u3 & s3 & H3 & H). assert (TR3 := keeps_ok _ _ _ _ keeps_skip_ws TR2 H3). apply skip_ws_ok with (T := T) in H3 as (A3 & w3 & Q3 & L3); [|apply D2].
    destruct (proj2 (de_tuple_ok false _ _ (tuple_body_ok rec Ts _ (VTupVariant name k) (REC false))) T s3 v s')
      as (D & t & w & d & Q & L & (t' & d' & PA & (l & -> & LE & HS) & ->) & HD); auto.
    { apply A3. } { now rewrite (adv_ext _ _ _ A3). } { now rewrite (adv_nt _ _ _ A3). }
    split; [eapply dok_trans; [exact D12|]; eapply dok_trans; [apply adv_dok; exact A3|exact D]|].
    assert (PN : exists y, t = c_lp :: y) by (inversion PA; eauto). destruct PN as [y ->].
    rewrite Q in L3. apply lay_cons in L3. rewrite Q3, Q in Lk.
    assert (Lk' : layout wk) by (eapply lay_solid; [exact Lk|destruct w3; discriminate]).
    exists (w0 ++ tk ++ (wk ++ w3) ++ c_lp :: y), w, (S d'). split; [rewrite Q12, Q3, Q; flat; reflexivity|].
    split; [assumption|]. rewrite (adv_lim _ _ _ A3), HL2 in HD. split; [|assumption].
    eapply ac_tup_variant; eauto. now apply layout_app.
  - apply bind_ok in H as (z & s3 & H3 & H). apply get_ok in H3 as [-> ->].
    apply bind_ok in H as (u3 & s3 & H3 & H). assert (TR3 := keeps_ok _ _ _ _ keeps_skip_ws TR2 H3). apply skip_ws_ok with (T := T) in H3 as (A3 & w3 & Q3 & L3); [|apply D2].
    apply map_err_ok in H.
    destruct (proj2 (struct_after_name_ok false [] _ _ (struct_body_text rec deny fields (is_option tenv) (acc e tenv false)
                    (fun t d => exists x, vacc e false x t d) (VStructVariant name k) (REC false) any_unknown_ok)) T s3 v s')
      as (D & t & w & d & Q & L & (t' & d' & PA & (fs & ents & -> & HS & SO) & ->) & HD); auto.
    { apply A3. } { now rewrite (adv_ext _ _ _ A3). } { now rewrite (adv_nt _ _ _ A3). }
    split; [eapply dok_trans; [exact D12|]; eapply dok_trans; [apply adv_dok; exact A3|exact D]|].
    assert (PN : exists y, t = c_lp :: y) by (inversion PA; eauto). destruct PN as [y ->].
    rewrite Q in L3. apply lay_cons in L3. rewrite Q3, Q in Lk.
    assert (Lk' : layout wk) by (eapply lay_solid; [exact Lk|destruct w3; discriminate]).
    exists (w0 ++ tk ++ (wk ++ w3) ++ c_lp :: y), w, (S d'). split; [rewrite Q12, Q3, Q; flat; reflexivity|].
    split; [assumption|]. rewrite (adv_lim _ _ _ A3), HL2 in HD. split; [|assumption].
    eapply ac_struct_variant; eauto. now apply layout_app.
Qed.

Lemma de_step_ok b t : reads_el b (de_step tenv rec t) (acc e tenv b t).
Proof.
  destruct t as [|k|k| | | | |name|t|name t|t|ts|name ts|kt vt|deny name fields|name variants| | | |n].
  - cbn [de_step]. apply reads_in_map. eapply reads_in_weaken; [|apply reads_in_el, parse_bool_ok].
    intros x t d [-> ->]. apply ac_leaf, lf_bool.
  - cbn [de_step]. destruct (int_supported k) eqn:K.
    + apply reads_in_el, (lex_ok b (TInt k) _ (fun p => VInt k (snd p))); [apply total_integer|kp|]. intros [k' z] t L. apply lexes_integer in L as [L1 L2]. now apply lf_int.
    + split; [kp|]. intros T s a s' _ _ _ _ H. now apply fail_ok in H.
  - apply reads_in_el, (lex_ok b (TFloat k) _ (fun p => VFloat k (snd p))); [apply total_float|kp|]. intros [k' z] t L. apply lexes_float in L. now apply lf_float.
  - apply reads_in_el, (lex_ok b TChar _ VChar); [apply total_parse_char|kp|]. intros. now apply lf_char, lexes_char.
  - apply reads_in_el, (lex_ok b TStr _ VStr); [apply total_parse_string|kp|]. intros. now apply lf_str, lexes_string.
  - cbn [de_step]. apply reads_in_map. eapply reads_in_weaken; [|apply reads_in_el, de_bytes_ok].
    intros l t d [[L ->]|(w & t' & w' & d' & -> & L & L' & HS & ->)].
    + apply ac_leaf. now apply lf_bytes, lexes_bytes.
    + now apply ac_bytes.
  - cbn [de_step]. apply (reads_in_map _ b de_unit (fun _ => VUnit)). eapply reads_in_weaken; [|apply reads_in_el, de_unit_ok].
    intros x t d [-> ->]. destruct b; [apply ac_unit_bare|apply ac_unit].
  - apply reads_in_el, de_unit_struct_ok.
  - split; [apply keeps_step, KREC|]. intros T s a s' I RD HE HN H. cbn [de_step] in H.
    apply de_option_ok with (b := b) (R := fun b v t' d => exists v', v = VSome v' /\ acc e tenv b t v' t' d) (T := T) in H
      as (D & t1 & w & d & Q & L & O & HD); auto.
    2:{ intros b'. apply reads_in_map. eapply reads_in_weaken; [|apply REC]. intros v' t' d HV. exists v'. auto. }
    split; [assumption|]. exists t1, w, d. split; [assumption|]. split; [assumption|]. split; [|assumption].
    destruct O as [(-> & -> & ->)|[(w1 & w2 & w3 & t' & d' & -> & L1 & L2 & L3 & (v' & -> & HV) & ->)|
                   (t' & d' & XI & C & (v' & -> & HV) & ->)]].
    + apply ac_none.
    + apply ac_some; auto.
    + destruct C as [(C1 & C2 & ->)|(w1 & L1 & ->)]; [|now apply ac_some_bare]. apply ac_implicit; auto.
      intros n c r [->| ->] ->; eapply bare_text_at; try reflexivity; rewrite <- Q; eassumption.
  - cbn [de_step]. eapply reads_in_weaken; [|apply de_newtype_ok, (reads_in_map _ false (rec t) (VNewtype name) (fun v t' d => exists v', v = VNewtype name v' /\ acc e tenv false t v' t' d))].
    2:{ eapply reads_in_weaken; [|apply REC]. intros v' t' d HV. exists v'. auto. }
    intros v t' d [(XB & d' & (v' & -> & HV) & ->)|(XU & -> & tn & w & t1 & w' & d' & -> & NA & L & TL & (v' & -> & HV) & ->)].
    + now apply ac_newtype_bare.
    + now apply ac_newtype.
  - cbn [de_step]. eapply reads_in_weaken; [|apply reads_in_el, de_seq_ok, seq_body_ok, REC].
    intros v t' d (w & t1 & w' & d' & -> & L & L' & (l & -> & HS) & ->). now apply ac_seq.
  - cbn [de_step]. eapply reads_in_weaken; [|apply reads_in_el, de_tuple_ok, tuple_body_ok, REC].
    intros v t' d (t1 & d' & PA & (l & -> & LE & HS) & ->). eapply ac_tuple; eauto.
  - cbn [de_step]. eapply reads_in_weaken; [|apply reads_in_el, named_ok, reads_in_map_err, de_tuple_ok, tuple_body_ok, REC].
    intros v t' d (tn & t2 & -> & HH & t1 & d' & PA & (l & -> & LE & HS) & ->). eapply ac_tuple_struct; eauto.
  - cbn [de_step]. eapply reads_in_weaken; [|apply reads_in_el, de_map_ok, map_body_ok; apply REC].
    intros v t' d (w & t1 & w' & d' & -> & L & L' & (l & -> & HS) & ->). now apply ac_map.
  - apply reads_in_el, struct_ok.
  - apply reads_in_el, enum_ok.
  - cbn [de_step]. apply reads_in_map. eapply reads_in_weaken; [|apply any_value_ok]. intros x t d V. now apply ac_any.
  - cbn [de_step]. apply (reads_in_map _ b any_value (fun _ => VIgnored)). eapply reads_in_weaken; [|apply any_value_ok]. intros x t d V. eapply ac_ignored. exact V.
  - apply de_raw_ok.
  - cbn [de_step]. eapply reads_in_weaken; [|apply REC]. intros v t d HV. now apply ac_ref.
Qed.
End Step.

(** nothing is read as a [T] but what the grammar allows *)
Lemma de_ty_ok tenv f : forall b t, reads_el b (de_ty tenv f t) (acc e tenv b t).
Proof.
  induction f as [|f IH]; intros b t; [split; [apply keeps_ty|intros T s a s' _ _ _ _ H; discriminate H]|].
  cbn [de_ty]. now apply de_step_ok.
Qed.
End Reads.
End Sound.
