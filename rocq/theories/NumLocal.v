(** Reading a number looks no further than the characters that could
    continue it: two texts with the same beginning [v], followed by different
    characters none of which could be part of a number or a word, are read
    alike. *)
From Coq Require Import String Ascii NArith ZArith Lia Bool List.
From Coq Require Import ZifyBool ZifyNat ZifyN.
From Verif Require Import Base Facts Value Data Parse De Wp EnvOk LexSafe Inv Lit LexSound AnyRead.
Import ListNotations.
Open Scope N_scope.
Open Scope list_scope.
Open Scope m_scope.

Section S.
Context {E : Env} {X : XidOk E}.

(** the characters of numbers, words and ranges *)
Definition tok (c : char) : bool :=
  is_float_char c || xid_continue c || (c =? c_hash) || (c =? c_eq) || (c =? c_dq) || (c =? c_sq).

Definition sub (p : char -> bool) : Prop := forall c, p c = true -> tok c = true.
Lemma sub_xid : sub xid_continue.
Proof. intros c H. unfold tok. rewrite H. now rewrite orb_true_r. Qed.
Lemma sub_float : sub is_float_char.
Proof. intros c H. unfold tok. now rewrite H. Qed.
Lemma sub_int : sub is_int_char.
Proof.
  intros c H. apply sub_xid. unfold is_int_char, is_hexdigit, is_digit in H. rewrite xid_continue_ascii by lia.
  unfold is_alpha, is_digit. lia.
Qed.
Lemma sub_raw : sub is_ident_raw_char.
Proof.
  intros c H. unfold is_ident_raw_char in H. unfold tok, is_float_char. destruct (xid_continue c); [now rewrite orb_true_r|].
  rewrite !orb_false_r in H. lia.
Qed.

(** the ASCII ones, and words made of them *)
Definition atok (c : char) : bool :=
  is_alpha c || is_digit c || (c =? c_us) || (c =? c_dot) || (c =? c_plus) || (c =? c_minus) || (c =? c_hash) || (c =? c_eq) || (c =? c_dq) || (c =? c_sq).
Lemma atok_tok c : atok c = true -> tok c = true.
Proof.
  intros H. unfold atok in H. unfold tok, is_float_char. unfold is_alpha, is_digit in *.
  destruct (N.ltb_spec c 128) as [L|L]; [|lia]. rewrite xid_continue_ascii by assumption. unfold is_alpha, is_digit. lia.
Qed.
Lemma word_tok w : forallb atok w = true -> forallb tok w = true.
Proof. rewrite !forallb_forall. intros H c IN. apply atok_tok. auto. Qed.

Section K.
Variables k k' : str.
Hypothesis K : starts_not tok k.
Hypothesis K' : starts_not tok k'.

Lemma while_local p v r : sub p -> starts_not tok r -> takewhile p (v ++ r) = takewhile p v.
Proof.
  intros S N. induction v as [|c v IH]; cbn.
  - destruct r as [|c r]; [reflexivity|]. cbn in *. destruct (p c) eqn:Q; [|reflexivity]. apply S in Q. congruence.
  - now rewrite IH.
Qed.
Lemma while_le p v : (blen (takewhile p v) <= blen v)%nat.
Proof. rewrite (take_drop_while p v) at 2. rewrite blen_app. lia. Qed.
Lemma strip_local w : forall v r, forallb tok w = true -> starts_not tok r ->
  strip_prefix w (v ++ r) = option_map (fun t => t ++ r) (strip_prefix w v).
Proof.
  induction w as [|c w IH]; intros v r T N; [reflexivity|]. cbn in T. apply andb_prop in T as [TC T].
  destruct v as [|d v].
  - destruct r as [|d r]; [reflexivity|]. cbn in *. destruct (c =? d) eqn:Q; [|reflexivity]. apply N.eqb_eq in Q. congruence.
  - cbn. destruct (c =? d); [now apply IH|reflexivity].
Qed.
Lemma starts_local w v r : forallb tok w = true -> starts_not tok r -> starts_with w (v ++ r) = starts_with w v.
Proof. intros T N. unfold starts_with. rewrite strip_local by assumption. now destruct (strip_prefix w v). Qed.
Lemma next_xid_local v r : starts_not tok r -> next_is_xid_continue (v ++ r) = next_is_xid_continue v.
Proof.
  intros N. destruct v; [|reflexivity]. destruct r as [|c r]; [reflexivity|]. cbn in *.
  destruct (xid_continue c) eqn:Q; [|reflexivity]. apply sub_xid in Q. congruence.
Qed.
Lemma ident_local w v r : forallb tok w = true -> starts_not tok r -> ident_at w (v ++ r) = ident_at w v.
Proof.
  intros T N. unfold ident_at. rewrite strip_local by assumption. destruct (strip_prefix w v); [|reflexivity]. cbn.
  now rewrite next_xid_local.
Qed.
Lemma bdrop_local : forall v n r, (n <= blen v)%nat -> bdrop n (v ++ r) = option_map (fun t => t ++ r) (bdrop n v).
Proof.
  induction v as [|c v IH]; intros n r L.
  - cbn in L. assert (n = 0)%nat by lia. subst. now rewrite !bdrop_0.
  - cbn [app bdrop]. destruct n; [reflexivity|]. cbn [blen] in L. destruct (Nat.leb (len_utf8 c) (S n)) eqn:Q; [|reflexivity].
    apply IH. lia.
Qed.
Lemma btake_local : forall v n r, (n <= blen v)%nat -> btake n (v ++ r) = btake n v.
Proof.
  induction v as [|c v IH]; intros n r L.
  - cbn in L. assert (n = 0)%nat by lia. subst. now rewrite !btake_0.
  - cbn [app btake]. destruct n; [reflexivity|]. cbn [blen] in L. destruct (Nat.leb (len_utf8 c) (S n)) eqn:Q; [|reflexivity].
    rewrite IH by lia. reflexivity.
Qed.

(** ** Two runs side by side *)
Definition both (v : str) (s s' : st) : Prop := rest s = v ++ k /\ rest s' = v ++ k'.
Definition same {A} (R : A -> A -> Prop) (o o' : out A) : Prop :=
  match o, o' with
  | Ok a s, Ok a' s' => R a a' /\ exists v, both v s s'
  | Err e s, Err e' s' => e = e' /\ exists v, both v s s'
  | Panic, Panic => True
  | OutOfFuel, OutOfFuel => True
  | _, _ => False
  end.
Definition par {A} (R : A -> A -> Prop) (v : str) (m m' : M A) : Prop :=
  forall s s', both v s s' -> same R (m s) (m' s').
Definition parq {A} (v : str) (m m' : M A) : Prop := par eq v m m'.

Lemma par_ret {A} (R : A -> A -> Prop) v a a' : R a a' -> par R v (ret a) (ret a').
Proof. intros H s s' B. cbn. eauto. Qed.
Lemma par_fail {A} (R : A -> A -> Prop) v e : par R v (fail e) (fail e).
Proof. intros s s' B. cbn. eauto. Qed.
Lemma par_panic {A} (R : A -> A -> Prop) v : par R v panic panic.
Proof. intros s s' B. exact Logic.I. Qed.
Lemma par_bind {A B} (R : A -> A -> Prop) (R2 : B -> B -> Prop) v m m' f f' : par R v m m' ->
  (forall a a' v1, R a a' -> par R2 v1 (f a) (f' a')) -> par R2 v (bind m f) (bind m' f').
Proof.
  intros H HF s s' B0. unfold bind. specialize (H s s' B0). destruct (m s), (m' s'); cbn in H |- *; try contradiction; auto.
  destruct H as (HR & v1 & B1). now apply (HF a a0 v1 HR).
Qed.
Lemma par_try {A B} (R : A -> A -> Prop) (R2 : B -> B -> Prop) v m m' f f' g g' : par R v m m' ->
  (forall a a' v1, R a a' -> par R2 v1 (f a) (f' a')) -> (forall e v1, par R2 v1 (g e) (g' e)) ->
  par R2 v (try m f g) (try m' f' g').
Proof.
  intros H HF HG s s' B0. unfold try. specialize (H s s' B0). destruct (m s), (m' s'); cbn in H |- *; try contradiction; auto.
  - destruct H as (HR & v1 & B1). now apply (HF a a0 v1 HR).
  - destruct H as (<- & v1 & B1). now apply (HG e v1).
Qed.
(** reading the text without moving *)
Lemma par_look {A B} (R2 : B -> B -> Prop) v (m m' : M A) a a' f f' :
  (forall s, rest s = v ++ k -> m s = Ok a s) -> (forall s, rest s = v ++ k' -> m' s = Ok a' s) ->
  par R2 v (f a) (f' a') -> par R2 v (bind m f) (bind m' f').
Proof. intros H H' HF s s' [B0 B1]. unfold bind. rewrite (H s B0), (H' s' B1). apply HF. now split. Qed.
Lemma par_src {B} (R2 : B -> B -> Prop) v f f' : par R2 v (f (v ++ k)) (f' (v ++ k')) -> par R2 v (bind src f) (bind src f').
Proof. apply par_look; intros s H; unfold src; now rewrite H. Qed.
Lemma par_while {B} (R2 : B -> B -> Prop) v p f f' : sub p -> par R2 v (f (blen (takewhile p v))) (f' (blen (takewhile p v))) ->
  par R2 v (bind (next_chars_while_len p) f) (bind (next_chars_while_len p) f').
Proof. intros S. apply par_look; intros s H; rewrite next_while_eq, H, while_local; auto. Qed.
Lemma par_while_from {B} (R2 : B -> B -> Prop) v n p f f' : sub p -> (n <= blen v)%nat ->
  (forall t, bdrop n v = Some t -> par R2 v (f (blen (takewhile p t))) (f' (blen (takewhile p t)))) ->
  par R2 v (bind (next_chars_while_from_len n p) f) (bind (next_chars_while_from_len n p) f').
Proof.
  intros S L H. unfold next_chars_while_from_len. intros s s' [B0 B1]. unfold bind, src. rewrite B0, B1, !bdrop_local by assumption.
  destruct (bdrop n v) as [t|] eqn:Q; [|exact Logic.I]. cbn [option_map of_slice]. unfold ret. rewrite !while_local by assumption.
  apply H; [reflexivity|]. now split.
Qed.
Lemma par_slice {B} (R2 : B -> B -> Prop) v (x x' : option str) f f' :
  match x, x' with Some t, Some t' => par R2 v (f t) (f' t') | None, None => True | _, _ => False end ->
  par R2 v (bind (of_slice x) f) (bind (of_slice x') f').
Proof.
  intros H s s' B0. unfold bind, of_slice. destruct x, x'; try contradiction.
  - now apply H.
  - exact Logic.I.
Qed.
Lemma par_advance v n : (n <= blen v)%nat -> parq v (advance_bytes n) (advance_bytes n).
Proof.
  intros L s s' [B0 B1]. unfold advance_bytes. rewrite B0, B1, !bdrop_local by assumption.
  destruct (bdrop n v) as [t|]; [|exact Logic.I]. cbn. split; [reflexivity|]. exists t. now split.
Qed.
Lemma par_consume_str v w : forallb tok w = true -> parq v (consume_str w) (consume_str w).
Proof.
  intros T s s' [B0 B1]. rewrite !consume_str_eq, B0, B1, !strip_local by assumption.
  destruct (strip_prefix w v) as [t|]; cbn; (split; [reflexivity|]); [exists t|exists v]; now split.
Qed.
Lemma par_consume_ident v w : forallb tok w = true -> parq v (consume_ident w) (consume_ident w).
Proof.
  intros T s s' [B0 B1]. rewrite !consume_ident_eq, B0, B1, !ident_local, !strip_local by assumption.
  destruct (ident_at w v); [|cbn; split; [reflexivity|exists v; now split]].
  destruct (strip_prefix w v) as [t|]; [|exact Logic.I]. cbn. split; [reflexivity|]. exists t; now split.
Qed.
Definition crel (c c' : cursor) : Prop := exists v, fst (fst c) = v ++ k /\ fst (fst c') = v ++ k'.
Lemma par_get_cursor v : par (fun c c' => fst (fst c) = v ++ k /\ fst (fst c') = v ++ k') v get_cursor_m get_cursor_m.
Proof. intros s s' [B0 B1]. cbn. split; [now split|]. exists v. now split. Qed.
Lemma par_set_cursor v c c' v1 : fst (fst c) = v1 ++ k -> fst (fst c') = v1 ++ k' -> parq v (set_cursor_m c) (set_cursor_m c').
Proof.
  intros H H' s s' _. destruct c as [[a b] d], c' as [[a' b'] d']. cbn in *. subst. split; [reflexivity|]. exists v1. now split.
Qed.
Lemma par_cursor {B} (R2 : B -> B -> Prop) v f f' :
  (forall c c', fst (fst c) = v ++ k -> fst (fst c') = v ++ k' -> par R2 v (f c) (f' c')) ->
  par R2 v (bind get_cursor_m f) (bind get_cursor_m f').
Proof. intros H s s' [B0 B1]. apply H; [exact B0|exact B1|now split]. Qed.
Lemma par_set {B} (R2 : B -> B -> Prop) v v1 c c' f f' : fst (fst c) = v1 ++ k -> fst (fst c') = v1 ++ k' ->
  par R2 v1 (f tt) (f' tt) -> par R2 v (bind (set_cursor_m c) f) (bind (set_cursor_m c') f').
Proof.
  intros H H' HF s s' _. destruct c as [[a b] d], c' as [[a' b'] d']. cbn in H, H'. subst. apply HF. now split.
Qed.
Definition head_is (c : char) (v : str) : bool := match v with [] => false | d :: _ => d =? c end.
Lemma check_local v c r s : tok c = true -> starts_not tok r -> rest s = v ++ r -> check_char c s = Ok (head_is c v) s.
Proof.
  intros T N H. unfold check_char. rewrite H. destruct v as [|d v]; [|reflexivity].
  destruct r as [|d r]; [reflexivity|]. cbn in *. replace (d =? c) with false; [reflexivity|]. symmetry. apply N.eqb_neq. intros ->. congruence.
Qed.
Lemma par_slice_before v0 v u : parq v0 (slice_before (u ++ k) (v ++ k)) (slice_before (u ++ k') (v ++ k')).
Proof.
  intros s s' B0. unfold slice_before. rewrite !blen_app.
  destruct (Nat.leb_spec (blen v + blen k) (blen u + blen k)), (Nat.leb_spec (blen v + blen k') (blen u + blen k')); try lia; [|exact Logic.I].
  replace (blen u + blen k - (blen v + blen k))%nat with (blen u - blen v)%nat by lia.
  replace (blen u + blen k' - (blen v + blen k'))%nat with (blen u - blen v)%nat by lia.
  rewrite !btake_local by lia. destruct (btake _ u); cbn; [|exact Logic.I]. split; [reflexivity|]. now exists v0.
Qed.

(** ** Integers *)
Lemma par_bindq {A B} (R2 : B -> B -> Prop) v (m m' : M A) f f' : parq v m m' ->
  (forall a v1, par R2 v1 (f a) (f' a)) -> par R2 v (bind m f) (bind m' f').
Proof. intros H HF. eapply par_bind; [exact H|]. intros a a' v1 ->. apply HF. Qed.

Lemma par_int_digits kd base neg whole v : (whole <= blen v)%nat -> forall ds i acc, (i + blen ds <= blen v)%nat ->
  parq v (int_digits kd base neg whole i ds acc) (int_digits kd base neg whole i ds acc).
Proof.
  intros W. induction ds as [|c ds IH]; intros i acc L; cbn [int_digits].
  - apply par_bindq; [now apply par_advance|]. intros. now apply par_ret.
  - cbn [blen] in L. destruct (c =? c_us); [apply IH; lia|].
    destruct (negb _); [apply par_bindq; [now apply par_advance|intros; apply par_fail]|].
    unfold decode_hex. destruct (hex_val c) as [d|].
    + eapply par_look; [reflexivity|reflexivity|]. destruct (_ <=? _)%Z.
      { apply par_bindq; [apply par_advance; lia|intros; apply par_fail]. }
      cbv zeta. destruct (negb _); [apply par_bindq; [now apply par_advance|intros; apply par_fail]|]. apply IH. lia.
    + apply par_fail.
Qed.
Lemma par_parse_integer kd neg base v : parq v (parse_integer kd neg base) (parse_integer kd neg base).
Proof.
  unfold parse_integer. apply par_while; [apply sub_int|]. destruct (Nat.eqb _ 0); [apply par_fail|].
  assert (L := while_le is_int_char v).
  assert (G : parq v (r <- src ;; s <- of_slice (btake (blen (takewhile is_int_char v)) r) ;;
                      int_digits kd base neg (blen (takewhile is_int_char v)) 0 s 0)
                     (r <- src ;; s <- of_slice (btake (blen (takewhile is_int_char v)) r) ;;
                      int_digits kd base neg (blen (takewhile is_int_char v)) 0 s 0)).
  { apply par_src. apply par_slice. rewrite !btake_local by assumption. rewrite btake_takewhile. apply par_int_digits; lia. }
  eapply par_look; [intros s H; apply check_local with (v := v) (r := k); auto using atok_tok|intros s H; apply check_local with (v := v) (r := k'); auto using atok_tok|].
  destruct (head_is c_us v); [apply par_fail|exact G].
Qed.
Lemma par_int_parse t neg base v : parq v (int_parse t neg base) (int_parse t neg base).
Proof.
  unfold int_parse. destruct t; [|destruct neg]; (apply par_bindq; [apply par_parse_integer|intros; now apply par_ret]).
Qed.
Lemma par_int_suffix v l : parq v (consume_int_suffix l) (consume_int_suffix l).
Proof.
  revert v. induction l as [|kd l IH]; intros v; cbn [consume_int_suffix]; [now apply par_ret|].
  apply par_bindq; [apply par_consume_ident|].
  - apply word_tok. now destruct kd.
  - intros [] v1; [now apply par_ret|apply IH].
Qed.
(** a branch on the first character behind [t] *)
Lemma branch_local {A} (R : A -> A -> Prop) v t (P : char -> bool) (y y' g g' : M A) : sub P ->
  par R v y y' -> par R v g g' ->
  par R v (match t ++ k with c :: _ => if P c then y else g | [] => g end)
          (match t ++ k' with c :: _ => if P c then y' else g' | [] => g' end).
Proof.
  intros S HY HG. destruct t as [|c t].
  - assert (N : forall r (a b : M A), starts_not tok r -> match r with c :: _ => if P c then a else b | [] => b end = b).
    { intros [|x r] a b N; [reflexivity|]. cbn in N. destruct (P x) eqn:Q; [|reflexivity]. apply S in Q. congruence. }
    cbn [app]. rewrite (N k), (N k') by assumption. exact HG.
  - cbn [app]. destruct (P c); assumption.
Qed.
Lemma par_skip_identifier v : parq v skip_identifier skip_identifier.
Proof.
  unfold skip_identifier. apply par_src. unfold starts_string_literal. rewrite !starts_local by (auto; apply word_tok; reflexivity).
  destruct (_ || _)%bool; [now apply par_ret|].
  destruct (starts_with s_rh v) eqn:RH.
  - unfold starts_with in RH. destruct (strip_prefix s_rh v) as [t|] eqn:Q; [|discriminate]. apply strip_prefix_some in Q. subst v. clear RH.
    assert (L2 : (2 <= blen (s_rh ++ t))%nat) by (cbn; lia).
    apply par_while_from; [apply sub_raw|exact L2|]. intros t0 D. change 2%nat with (blen s_rh) in D. rewrite bdrop_app in D. injection D as <-.
    destruct (Nat.ltb _ _); [|now apply par_ret].
    apply par_slice. assert (BD : forall r, bdrop 2 ((s_rh ++ t) ++ r) = Some (t ++ r)) by (intros r; rewrite <- app_assoc; apply (bdrop_app s_rh)).
    rewrite !BD. apply par_slice. rewrite !btake_local by apply while_le. rewrite btake_takewhile.
    apply par_bindq; [|intros; now apply par_ret]. apply par_advance. rewrite blen_app. assert (W := while_le is_ident_raw_char t). change (blen s_rh) with 2%nat. unfold str, char in *. lia.
  - destruct v as [|c v].
    + assert (N : forall r x r0, starts_not tok r -> r = x :: r0 -> is_ident_first_char x = false).
      { intros r x r0 N ->. cbn in N. destruct (is_ident_first_char x) eqn:Q; [|reflexivity]. exfalso.
        unfold is_ident_first_char in Q. apply orb_prop in Q as [Q|Q].
        - apply N.eqb_eq in Q. subst x. discriminate.
        - apply xid_start_continue, sub_xid in Q. congruence. }
      assert (G : forall r (y : char -> M (option str)) g, starts_not tok r -> match r with [] => g | c :: _ => if is_ident_first_char c then y c else g end = g).
      { intros [|x r] y g HN; [reflexivity|]. now rewrite (N _ x r HN eq_refl). }
      cbn [app]. match goal with |- par _ _ ?a ?b => replace a with (@ret (option str) None); [replace b with (@ret (option str) None)|] end; [now apply par_ret|..];
      symmetry; [apply (G k')|apply (G k)]; assumption.
    + cbn [app]. destruct (is_ident_first_char c); [|now apply par_ret].
      apply par_while_from; [apply sub_xid|cbn; lia|]. intros t D. change (c :: v) with ([c] ++ v) in D.
      replace (len_utf8 c) with (blen [c]) in D by (cbn; lia). rewrite bdrop_app in D. injection D as <-. cbv zeta.
      assert (W := while_le xid_continue v).
      apply par_slice. rewrite !app_comm_cons, !btake_local by (cbn [blen]; lia). destruct (btake _ (c :: v)); [|exact Logic.I].
      apply par_bindq; [apply par_advance; cbn [blen]; lia|intros; now apply par_ret].
Qed.
Lemma par_integer_body t neg base u v : parq v (integer_body t neg base (u ++ k)) (integer_body t neg base (u ++ k')).
Proof.
  unfold integer_body. apply par_while; [apply sub_int|]. apply par_src. apply par_slice.
  assert (L := while_le is_int_char v). rewrite !bdrop_local by assumption. rewrite bdrop_takewhile. cbn [option_map]. cbv zeta.
  apply branch_local with (P := fun c => (c =? 105) || (c =? 117)).
  - intros c H. apply atok_tok. unfold atok, is_alpha. lia.
  - apply par_cursor. intros c c' C C'. apply par_bindq; [now apply par_advance|]. intros _ v1.
    apply par_bindq; [apply par_int_suffix|]. intros [kd|] v2.
    + apply par_src. apply (par_set _ v2 v); [assumption..|].
      assert (F : forall v3, parq v3 (slice_before (u ++ k) (v2 ++ k) ;;; ret tt) (slice_before (u ++ k') (v2 ++ k') ;;; ret tt)).
      { intros v3. apply par_bindq; [apply par_slice_before|]. intros. now apply par_ret. }
      eapply par_try; [apply par_parse_integer| |].
      * intros z z' v3 <-. apply par_bindq; [apply par_skip_identifier|]. intros _ v4. apply par_bindq; [apply F|]. intros _ v5.
        unfold try_from_parsed_integer. destruct t; [|now apply par_ret]. cbn [fst]. destruct (ik_eqb _ _); [now apply par_ret|apply par_fail].
      * intros e v3. assert (S : parq v3 (skip_identifier ;;; (slice_before (u ++ k) (v2 ++ k) ;;; ret tt) ;;; fail e)
          (skip_identifier ;;; (slice_before (u ++ k') (v2 ++ k') ;;; ret tt) ;;; @fail (ik * Z) e)).
        { apply par_bindq; [apply par_skip_identifier|]. intros _ v4. apply par_bindq; [apply F|]. intros _ v5. apply par_fail. }
        destruct e; try exact S; (apply par_bindq; [apply F|intros; apply par_fail]).
    + apply (par_set _ v2 v); [assumption..|]. apply par_int_parse.
  - apply par_int_parse.
Qed.
Definition starts_byte (v : str) : bool := starts_with s_bsq v.
Lemma par_integer t v : v <> [] -> starts_byte v = false -> parq v (integer t) (integer t).
Proof.
  intros NE NB. destruct v as [|c v]; [contradiction|]. unfold integer. apply par_src.
  eapply par_look; [intros s H; unfold peek_char_or_eof; rewrite H; reflexivity|intros s H; unfold peek_char_or_eof; rewrite H; reflexivity|].
  cbv zeta.
  assert (B : forall neg v1, parq v1
    (b <- consume_str s_0b ;; if b then integer_body t neg 2 ((c :: v) ++ k) else
     o <- consume_str s_0o ;; if o then integer_body t neg 8 ((c :: v) ++ k) else
     x <- consume_str s_0x ;; if x then integer_body t neg 16 ((c :: v) ++ k) else integer_body t neg 10 ((c :: v) ++ k))
    (b <- consume_str s_0b ;; if b then integer_body t neg 2 ((c :: v) ++ k') else
     o <- consume_str s_0o ;; if o then integer_body t neg 8 ((c :: v) ++ k') else
     x <- consume_str s_0x ;; if x then integer_body t neg 16 ((c :: v) ++ k') else integer_body t neg 10 ((c :: v) ++ k'))).
  { intros neg v1. do 3 (apply par_bindq; [apply par_consume_str, word_tok; reflexivity|]; intros [] ?; [apply par_integer_body|]).
    apply par_integer_body. }
  assert (SK : parq (c :: v) skip_next_char skip_next_char).
  { intros s s' [B0 B1]. unfold skip_next_char, try, next_char. rewrite B0, B1. cbn. split; [reflexivity|]. exists v. now split. }
  destruct (c =? c_plus); [apply par_bindq; [exact SK|intros; apply B]|].
  destruct (c =? c_minus); [apply par_bindq; [exact SK|intros; apply B]|].
  destruct (c =? c_b); [|apply B].
  apply par_look with (a := false) (a' := false); [intros s H|intros s H|apply B];
    rewrite consume_str_eq, H, strip_local by (auto; apply word_tok; reflexivity);
    unfold starts_byte, starts_with in NB; destruct (strip_prefix s_bsq (c :: v)); [discriminate|reflexivity|discriminate|reflexivity].
Qed.

(** ** Floats *)
Lemma par_float_parse t u v : parq v (float_parse t u) (float_parse t u).
Proof.
  unfold float_parse. destruct t as [kd|]; destruct (f_read _ u) as [b|]; try apply par_fail; try now apply par_ret.
  destruct (_ =? _); now apply par_ret.
Qed.
Lemma par_from_float t p v : parq v (try_from_parsed_float t p) (try_from_parsed_float t p).
Proof. unfold try_from_parsed_float. destruct t; [|now apply par_ret]. destruct (fk_eqb _ _); [now apply par_ret|apply par_fail]. Qed.
Lemma par_float_lits t l v : Forall (fun x => forallb tok (fst (fst x)) = true) l -> parq v (float_lits t l) (float_lits t l).
Proof.
  intros F. revert v. induction F as [|[[w v32] v64] l T F IH]; intros v; cbn [float_lits]; [now apply par_ret|]. cbn [fst] in T.
  apply par_bindq; [now apply par_consume_ident|]. clear v. intros [] v.
  - apply par_bindq; [apply par_float_parse|]. intros. now apply par_ret.
  - apply par_src. rewrite !strip_local by assumption. destruct (strip_prefix w v) as [sfx|] eqn:SP; [|apply IH]. cbn [option_map]. cbv zeta.
    apply strip_prefix_some in SP. subst v.
    assert (W : forall kd (v0 : N) (next next' : M (option (fk * N))), parq (w ++ sfx) next next' ->
      parq (w ++ sfx)
       (match strip_prefix (match kd with F32 => s_f32 | F64 => s_f64 end) (sfx ++ k) with
        | Some post => if next_is_xid_continue post then next else
            of_slice (btake (blen w + 3) ((w ++ sfx) ++ k)) ;;; advance_bytes (blen w + 3) ;;; x <- try_from_parsed_float t (kd, v0) ;; ret (Some x)
        | None => next end)
       (match strip_prefix (match kd with F32 => s_f32 | F64 => s_f64 end) (sfx ++ k') with
        | Some post => if next_is_xid_continue post then next' else
            of_slice (btake (blen w + 3) ((w ++ sfx) ++ k')) ;;; advance_bytes (blen w + 3) ;;; x <- try_from_parsed_float t (kd, v0) ;; ret (Some x)
        | None => next' end)).
    { intros kd v0 n n' HN. assert (TS : forallb tok (match kd with F32 => s_f32 | F64 => s_f64 end) = true) by (apply word_tok; now destruct kd).
      rewrite !strip_local by assumption. destruct (strip_prefix _ sfx) as [post|] eqn:SP; [|exact HN]. cbn [option_map].
      rewrite !next_xid_local by assumption. destruct (next_is_xid_continue post); [exact HN|].
      assert (L : (blen w + 3 <= blen (w ++ sfx))%nat).
      { apply strip_prefix_some in SP. subst sfx. rewrite !blen_app. assert (3 = blen (match kd with F32 => s_f32 | F64 => s_f64 end))%nat by now destruct kd. unfold str, char in *. lia. }
      apply par_slice. rewrite (btake_local (w ++ sfx) (blen w + 3) k), (btake_local (w ++ sfx) (blen w + 3) k') by exact L.
      destruct (btake _ _); [|exact Logic.I].
      apply par_bindq; [now apply par_advance|]. intros _ v1. apply par_bindq; [apply par_from_float|]. intros. now apply par_ret. }
    apply (W F32), (W F64), IH.
Qed.
Lemma dotdot_len_le s : (dotdot_len s <= blen s)%nat.
Proof.
  unfold dotdot_len. destruct (find_str s_dotdot s) as [[a b]|] eqn:Q; [|lia]. apply find_str_some in Q as [-> _]. rewrite blen_app. lia.
Qed.
Lemma float_chars_le : forall s i allow j, float_chars i allow s = inr j -> (j <= i + blen s)%nat.
Proof.
  induction s as [|c s IH]; intros i al j H; cbn [float_chars blen] in *; [discriminate|].
  destruct (c =? c_us).
  - destruct al; [apply IH in H; lia|injection H as <-; lia].
  - cbv zeta in H. match type of H with match ?x with _ => _ end = _ => destruct x eqn:Q end; [discriminate|]. injection H as <-. apply IH in Q. lia.
Qed.
Lemma btake_blen : forall s n t, btake n s = Some t -> blen t = n.
Proof.
  induction s as [|c s IH]; intros [|n] t H; cbn [btake] in H; try discriminate; try (injection H as <-; reflexivity).
  destruct (Nat.leb (len_utf8 c) (S n)) eqn:Q; [|discriminate]. destruct (btake _ s) as [u|] eqn:B; [|discriminate]. cbn in H. injection H as <-.
  apply IH in B. cbn [blen]. lia.
Qed.
Lemma par_float t v : parq v (float t) (float t).
Proof.
  unfold float. apply par_bindq.
  { apply par_float_lits. repeat constructor; apply word_tok; reflexivity. }
  clear v. intros [x|] v; [now apply par_ret|].
  apply par_while; [apply sub_float|]. apply par_src. assert (L := while_le is_float_char v).
  apply par_slice. rewrite !btake_local by assumption. rewrite btake_takewhile. cbv zeta.
  assert (DL := dotdot_len_le (takewhile is_float_char v)). set (n := dotdot_len (takewhile is_float_char v)) in *.
  assert (LN : (n <= blen v)%nat) by lia. clearbody n.
  destruct (Nat.eqb n 0); [apply par_fail|].
  eapply par_look; [intros s H; apply check_local with (v := v) (r := k); auto using atok_tok|intros s H; apply check_local with (v := v) (r := k'); auto using atok_tok|].
  destruct (head_is c_us v); [apply par_fail|].
  apply par_slice. rewrite !btake_local by assumption. destruct (btake n v) as [u|] eqn:BT; [|exact Logic.I]. apply btake_blen in BT.
  destruct (float_chars 0 false u) as [f|i] eqn:FC.
  2:{ apply float_chars_le in FC. apply par_bindq; [apply par_advance; lia|intros; apply par_fail]. }
  apply par_slice. rewrite !bdrop_local by assumption. destruct (bdrop n v) as [t'|] eqn:BD; [|exact Logic.I]. cbn [option_map].
  assert (PL : parq v (w <- float_parse t f ;; advance_bytes n ;;; ret w) (w <- float_parse t f ;; advance_bytes n ;;; ret w)).
  { unfold float_parse. destruct t as [kd|]; destruct (f_read _ f) as [b|]; try apply par_fail;
      [|destruct (b =? f_widen (f_narrow b))]; (eapply par_look; [reflexivity|reflexivity|]; apply par_bindq; [now apply par_advance|intros; now apply par_ret]). }
  apply branch_local with (P := fun c => c =? 102); [intros c H; apply atok_tok; unfold atok, is_alpha; lia| |exact PL].
  apply par_cursor. intros c c' C C'. apply par_bindq; [now apply par_advance|]. intros _ v1.
  assert (FI : forall kd v2,
    parq v2 (match f_read kd f with None => set_cursor_m c ;;; fail EExpectedFloat
             | Some w => after <- src ;; slice_before (v ++ k) after ;;; try_from_parsed_float t (kd, w) end)
            (match f_read kd f with None => set_cursor_m c' ;;; fail EExpectedFloat
             | Some w => after <- src ;; slice_before (v ++ k') after ;;; try_from_parsed_float t (kd, w) end)).
  { intros kd v2. destruct (f_read kd f).
    - apply par_src. apply par_bindq; [apply par_slice_before|]. intros. apply par_from_float.
    - apply (par_set _ v2 v); [assumption..|]. apply par_fail. }
  apply par_bindq; [apply par_consume_ident, word_tok; reflexivity|]. intros [] v2; [apply (FI F32)|].
  apply par_bindq; [apply par_consume_ident, word_tok; reflexivity|]. intros [] v3; [apply (FI F64)|].
  apply (par_set _ v3 v); [assumption..|]. exact PL.
Qed.
(** ** Any number *)
Lemma par_is_float v : v <> [] -> parq v next_bytes_is_float next_bytes_is_float.
Proof.
  intros NE. destruct v as [|c v]; [contradiction|]. unfold next_bytes_is_float.
  apply par_look with (a := Some c) (a' := Some c); [intros s H; unfold peek_char; rewrite H; reflexivity|intros s H; unfold peek_char; rewrite H; reflexivity|].
  cbv zeta beta iota. set (sk := if (c =? c_plus) || (c =? c_minus) then 1%nat else 0%nat).
  assert (L : (sk <= blen (c :: v))%nat) by (subst sk; cbn [blen]; pose proof (len_utf8_pos c); destruct (_ || _)%bool; lia). change (if (c =? c_plus) || (c =? c_minus) then 1%nat else 0%nat) with sk. clearbody sk.
  apply par_while_from; [apply sub_float|exact L|]. intros t D. apply par_src.
  apply par_slice. rewrite !bdrop_local by exact L. rewrite D. cbn [option_map].
  apply par_slice. rewrite !btake_local by apply while_le. rewrite btake_takewhile.
  apply par_while_from; [apply sub_int|exact L|]. intros t0 D0. now apply par_ret.
Qed.
Lemma par_ident {B} (R2 : B -> B -> Prop) v w f f' : forallb tok w = true -> (forall v1, par R2 v1 (f true) (f' true)) ->
  par R2 v (f false) (f' false) -> par R2 v (bind (consume_ident w) f) (bind (consume_ident w) f').
Proof.
  intros T HT HF s s' B0. assert (C := par_consume_ident v w T s s' B0). unfold bind. destruct B0 as [B0 B1].
  rewrite !consume_ident_eq, B0, B1, !ident_local in * by assumption. destruct (ident_at w v); [|apply HF; now split].
  destruct (strip_prefix w (v ++ k)), (strip_prefix w (v ++ k')); try contradiction; [|exact C].
  destruct C as (_ & v1 & C). now apply (HT v1).
Qed.
Lemma par_float_bind {B} (R2 : B -> B -> Prop) v f f' : v <> [] -> (forall b, par R2 v (f b) (f' b)) ->
  par R2 v (bind next_bytes_is_float f) (bind next_bytes_is_float f').
Proof.
  intros NE HF s s' B0. assert (C := par_is_float v NE s s' B0). unfold bind.
  destruct (next_bytes_is_float s) eqn:Q, (next_bytes_is_float s') eqn:Q'; try contradiction; try exact C.
  destruct C as (<- & _). apply next_bytes_is_float_same in Q, Q'. subst. now apply HF.
Qed.
Lemma par_number_core v : v <> [] -> starts_byte v = false -> parq v number_core number_core.
Proof.
  intros NE NB. unfold number_core. apply par_float_bind; [assumption|]. intros [].
  { apply par_bindq; [apply par_float|]. intros. now apply par_ret. }
  apply par_cursor. intros c c' C C'. eapply par_try; [now apply par_integer| |].
  - intros x x' v1 <-. now apply par_ret.
  - intros e v1. apply par_cursor. intros d d' D D'. apply (par_set _ v1 v); [assumption..|]. cbv zeta.
    assert (G : forall v2, parq v2 (set_cursor_m d ;;; @fail num e) (set_cursor_m d' ;;; fail e)).
    { intros v2. apply (par_set _ v2 v1); [assumption..|]. apply par_fail. }
    eapply par_try; [apply par_float| |].
    + intros x x' v2 <-. apply par_src. destruct d as [[d1 d2] d3], d' as [[d1' d2'] d3']. cbn [fst] in *. subst d1 d1'. rewrite !blen_app.
      destruct (Nat.leb_spec (blen v2 + blen k) (blen v1 + blen k)), (Nat.leb_spec (blen v2 + blen k') (blen v1 + blen k')); try lia; [now apply par_ret|apply G].
    + intros _ v2. apply G.
Qed.
Lemma par_any_number v : v <> [] -> starts_byte v = false -> parq v any_number any_number.
Proof.
  intros NE NB. unfold any_number. do 6 (apply par_ident; [apply word_tok; reflexivity|intros v1; now apply par_ret|]).
  now apply par_number_core.
Qed.
End K.
End S.
