(** C56: error messages. *)
From Coq Require Import String Ascii NArith ZArith Lia Bool List.
From Coq Require Import ZifyBool ZifyNat ZifyN.
From Verif Require Import Base Facts Value Data Parse De Span Ser EnvOk Lit ShowFacts LexSafe LexWs LexRead SerLex LexDoc Message Toy.
Import ListNotations.
Open Scope N_scope.
Open Scope list_scope.

(** ** Specification *)
(** the names a message shows, in order, are [l]: between them there are only
    words, without quotation marks *)
Definition words (t : str) : Prop := forall c, In c t -> c <> c_bq /\ c <> c_dq.
Inductive mentions : list str -> str -> Prop :=
  | mn_nil t : words t -> mentions [] t
  | mn_cons w x l t : words w -> mentions l t -> mentions (x :: l) (w ++ x ++ t).
Definition option_list {A} (o : option A) : list A := match o with Some a => [a] | None => [] end.
(** what {:?} does with a string, as far as it matters here *)
Definition quoted (debug : str -> str) : Prop := forall n, exists t, debug n = c_dq :: t ++ [c_dq].

Section WithEnv.
Context {E : Env} {X : XidOk E}.
Variable debug : str -> str.
Local Notation show := (show_ident debug).

(** ** Names *)
(** A name is shown between back quotes the way it is written in a document; a
    name that cannot be written is shown as a string, and said to be invalid. *)
Theorem C56_names n :
  (exists t, show n = c_bq :: t ++ [c_bq] /\ ident_lit t n /\ forall r, ident_end r ->
     exists s', identifier (init_state (t ++ r)) = Ok n s' /\ rest s' = r) \/
  (show n = debug n ++ s_invalid /\ forall t, ~ ident_lit t n).
Proof.
  unfold show_ident. destruct (is_nil n || negb (forallb is_ident_raw_char n)) eqn:V.
  - right. split; [reflexivity|]. intros t L. destruct L as [c r F1 F2|n NE F].
    + rewrite ident_plain_raw in V by assumption. discriminate.
    + rewrite F in V. destruct n; [contradiction|discriminate].
  - left. apply orb_false_iff in V as [NE R]. apply negb_false_iff in R.
    assert (RD : forall t, ident_lit t n -> forall r, ident_end r -> exists s', identifier (init_state (t ++ r)) = Ok n s' /\ rest s' = r).
    { intros t L r D. eapply reads_run; [apply reads_identifier; exact L|exact D]. }
    destruct n as [|c r]; [discriminate|]. destruct (negb (is_ident_first_char c) || negb (forallb xid_continue r)) eqn:P.
    + exists (s_rh ++ c :: r). split; [now rewrite <- app_assoc|]. assert (L : ident_lit (s_rh ++ c :: r) (c :: r)) by (now apply id_raw). auto.
    + apply orb_false_iff in P as [P1 P2]. apply negb_false_iff in P1, P2. exists (c :: r). split; [reflexivity|].
      assert (L : ident_lit (c :: r) (c :: r)) by (now apply id_plain). auto.
Qed.
(** The two are told apart by how they start. *)
Theorem C56_invalid n : quoted debug ->
  ((exists t, ident_lit t n) <-> exists t, show n = c_bq :: t).
Proof.
  intros Q. destruct (C56_names n) as [(t & SH & L & _)|(SH & NL)].
  - split; [intros _; exists (t ++ [c_bq]); exact SH|intros _; exists t; exact L].
  - split; [intros [t L]; destruct (NL t L)|]. intros [t H]. rewrite SH in H. destruct (Q n) as [q D].
    rewrite D in H. discriminate.
Qed.

(** ** The names in a message *)
Lemma mentions_words w l t : words w -> mentions l t -> mentions l (w ++ t).
Proof.
  intros W M. destruct M as [t T|v x l t V M].
  - constructor. intros c HI. apply in_app_iff in HI as [H|H]; auto.
  - rewrite app_assoc. constructor; [|exact M]. intros c HI. apply in_app_iff in HI as [H|H]; auto.
Qed.
Lemma mentions_name x l t : mentions l t -> mentions (x :: l) (x ++ t).
Proof. intros M. exact (mn_cons [] x l t (fun c H => match H with end) M). Qed.
Lemma words_b t : forallb (fun c => negb (c =? c_bq) && negb (c =? c_dq)) t = true -> words t.
Proof.
  intros F c H. rewrite forallb_forall in F. specialize (F c H). unfold c_bq in *. lia.
Qed.
Local Ltac wd := apply words_b; vm_compute; reflexivity.
Local Ltac mw := apply mentions_words; [wd|].

Lemma mentions_last l : forall a, mentions (map show (a :: l)) (show_last debug l a).
Proof.
  induction l as [|b l IH]; intros a; cbn [show_last map].
  - mw. apply mentions_name. constructor. wd.
  - mw. apply mentions_name. apply IH.
Qed.
Lemma mentions_one_of none alts : words none -> mentions (map show alts) (one_of debug none alts).
Proof.
  intros W. destruct alts as [|a [|b [|d l]]]; cbn [one_of map].
  - mw. constructor. exact W.
  - mw. apply mentions_name. constructor. wd.
  - mw. apply mentions_name. mw. apply mentions_name. constructor. wd.
  - mw. apply mentions_name. apply (mentions_last (d :: l) b).
Qed.
Lemma mentions_outer word outer l t : words word -> mentions l t ->
  mentions (map show (option_list outer) ++ l) (in_outer debug word outer ++ t).
Proof.
  intros W M. destruct outer as [o|]; cbn [option_list map in_outer app]; [|exact M].
  rewrite <- app_assoc. apply mentions_words; [exact W|]. apply mentions_name. exact M.
Qed.

(** A message about a variant or field shows the offending name first, then the
    enum or struct if it is known, then every alternative in order; a missing
    or duplicate field, likewise. *)
Theorem C56_mentions expected found outer :
  mentions (map show (found :: option_list outer ++ expected)) (no_such_variant debug expected found outer) /\
  mentions (map show (found :: option_list outer ++ expected)) (no_such_field debug expected found outer) /\
  mentions (map show (found :: option_list outer)) (missing_field debug found outer) /\
  mentions (map show (found :: option_list outer)) (duplicate_field debug found outer).
Proof.
  assert (NIL : mentions [] []) by (constructor; intros c []).
  cbn [map]. rewrite map_app. unfold no_such_variant, no_such_field, missing_field, duplicate_field. repeat split.
  - mw. apply mentions_words; [destruct outer; wd|]. mw. apply mentions_name. apply mentions_outer; [wd|]. mw.
    apply mentions_one_of. wd.
  - mw. mw. apply mentions_name. apply mentions_outer; [wd|]. mw. apply mentions_one_of. wd.
  - mw. mw. mw. apply mentions_name. rewrite <- (app_nil_r (in_outer _ _ _)), <- (app_nil_r (map show _)).
    apply mentions_outer; [wd|exact NIL].
  - mw. mw. mw. apply mentions_name. rewrite <- (app_nil_r (in_outer _ _ _)), <- (app_nil_r (map show _)).
    apply mentions_outer; [wd|exact NIL].
Qed.
End WithEnv.

(** ** Positions and spans *)
Lemma hex_digit_fun c d e : hex_digit c d -> hex_digit c e -> d = e.
Proof. intros H K. inversion H; inversion K; subst; unfold char in *; lia. Qed.
Lemma us_no_digit d : ~ hex_digit c_us d.
Proof. intros H. remember c_us as c eqn:C. inversion H; subst; unfold char in *; lia. Qed.
Lemma int_number_fun base s y : int_number base s y -> forall z, int_number base s z -> y = z.
Proof.
  induction 1 as [c d H B|s y c d H IH HD B|s y H IH]; intros z K.
  - inversion K as [c' d' H' B' EQ|s' z' c' d' H' HD' B' EQ|s' z' H' EQ]; subst.
    + now rewrite (hex_digit_fun c d d').
    + destruct s' as [|? []]; try discriminate. inversion H'; subst; destruct s; discriminate.
    + destruct s' as [|? []]; try discriminate. inversion H'; subst; destruct s; discriminate.
  - inversion K as [c' d' H' B' EQ|s' z' c' d' H' HD' B' EQ|s' z' H' EQ]; subst.
    + destruct s as [|? []]; try discriminate. inversion H; subst; destruct s; discriminate.
    + apply app_inj_tail in EQ as [-> ->]. rewrite (hex_digit_fun c d d') by assumption. now rewrite (IH z').
    + apply app_inj_tail in EQ as [_ EQ]. rewrite <- EQ in HD. destruct (us_no_digit _ HD).
  - inversion K as [c' d' H' B' EQ|s' z' c' d' H' HD' B' EQ|s' z' H' EQ]; subst.
    + destruct s as [|? []]; try discriminate. inversion H; subst; destruct s; discriminate.
    + apply app_inj_tail in EQ as [_ EQ]. rewrite EQ in HD'. destruct (us_no_digit _ HD').
    + apply app_inj_tail in EQ as [-> _]. auto.
Qed.
Lemma show_nat_inj m n : show_nat m = show_nat n -> m = n.
Proof.
  unfold show_nat. intros H. pose proof (show_N_int (N.of_nat m)) as K. rewrite H in K.
  pose proof (int_number_fun _ _ _ K _ (show_N_int (N.of_nat n))). lia.
Qed.
Lemma digits_then ds es c d r q : forallb is_digit ds = true -> forallb is_digit es = true ->
  is_digit c = false -> is_digit d = false -> ds ++ c :: r = es ++ d :: q -> ds = es /\ c :: r = d :: q.
Proof.
  intros F G C D. revert es G. induction ds as [|x ds IH]; intros [|y es] G; cbn [app].
  - auto.
  - intros EQ. injection EQ as -> _. cbn [forallb] in G. rewrite C in G. discriminate.
  - intros EQ. injection EQ as -> _. cbn [forallb] in F. rewrite D in F. discriminate.
  - intros EQ. injection EQ as -> EQ. cbn [forallb] in F, G. apply andb_true_iff in F as [_ F], G as [_ G].
    destruct (IH F es G EQ) as [-> ->]. auto.
Qed.
Lemma show_nat_digits n : forallb is_digit (show_nat n) = true.
Proof. apply show_N_digits. Qed.
Lemma nat_then m n c d r q : is_digit c = false -> is_digit d = false ->
  show_nat m ++ c :: r = show_nat n ++ d :: q -> m = n /\ c :: r = d :: q.
Proof.
  intros C D EQ. apply digits_then in EQ as [H K]; auto using show_nat_digits. split; [now apply show_nat_inj|exact K].
Qed.
Lemma position_then p q c d r t : is_digit c = false -> is_digit d = false ->
  show_position p ++ c :: r = show_position q ++ d :: t -> p = q /\ c :: r = d :: t.
Proof.
  intros C D. unfold show_position. rewrite <- !app_assoc. cbn [app]. intros EQ.
  apply nat_then in EQ as [L EQ]; [|reflexivity|reflexivity]. injection EQ as EQ.
  apply nat_then in EQ as [K EQ]; [|assumption|assumption]. destruct p, q; cbn in *; subst; auto.
Qed.
Lemma position_eqb_spec p q : position_eqb p q = true <-> p = q.
Proof.
  unfold position_eqb. rewrite andb_true_iff, !Nat.eqb_eq. destruct p, q; cbn. split; [intros [-> ->]|intros EQ; injection EQ]; auto.
Qed.

(** A reported error says where it is: the two positions and the message can be
    read off the report, whatever the message is. *)
Theorem C56_reported s s' m m' : show_spanned s m = show_spanned s' m' -> s = s' /\ m = m'.
Proof.
  destruct s as [a b], s' as [a' b']. unfold show_spanned, show_span. cbn [fst snd].
  destruct (position_eqb a b) eqn:P, (position_eqb a' b') eqn:Q; rewrite <- ?app_assoc; cbn [app]; intros EQ;
    apply position_then in EQ as [-> EQ]; try reflexivity; try discriminate; injection EQ as EQ.
  - apply position_eqb_spec in P, Q. subst. auto.
  - apply position_then in EQ as [-> EQ]; try reflexivity. injection EQ as ->. auto.
Qed.

(** ** Examples: the messages of error.rs:586-652 *)
Section Examples.
#[local] Existing Instance Toy.
Local Notation L := lit.
Definition toy_debug (s : str) : str := c_dq :: s ++ [c_dq].
Example toy_quoted : quoted toy_debug.
Proof. intros n. exists n. reflexivity. Qed.
Example C56_two : no_such_variant toy_debug [L "A"; L "B+C"] (L "D") (Some (L "E")) =
  L "Unexpected variant named `D` in enum `E`, expected either `A` or `r#B+C` instead".
Proof. reflexivity. Qed.
Example C56_none : no_such_variant toy_debug [] (L "unknown") None =
  L "Unexpected enum variant named `unknown`, there are no variants".
Proof. reflexivity. Qed.
Example C56_one : no_such_field toy_debug [L "a"] (L "b") (Some (L "S")) =
  L "Unexpected field named `b` in `S`, expected `a` instead".
Proof. reflexivity. Qed.
Example C56_three : no_such_field toy_debug [L "a"; L "b+c"; L "d"] (L "e") (Some (L "S")) =
  L "Unexpected field named `e` in `S`, expected one of `a`, `r#b+c`, or `d` instead".
Proof. reflexivity. Qed.
Example C56_missing : missing_field toy_debug [] (Some (L "S+T")) =
  L "Unexpected missing field named """"_[invalid identifier] in `r#S+T`".
Proof. reflexivity. Qed.
Example C56_duplicate : duplicate_field toy_debug (L "b+c") (Some (L "S+T")) =
  L "Unexpected duplicate field named `r#b+c` in `r#S+T`".
Proof. reflexivity. Qed.
Example C56_report : show_spanned (Pos 1 2, Pos 3 4) (L "Expected boolean") = L "1:2-3:4: Expected boolean" /\
  show_spanned (Pos 1 2, Pos 1 2) (L "Expected boolean") = L "1:2: Expected boolean".
Proof. split; reflexivity. Qed.
End Examples.

Print Assumptions C56_names.
Print Assumptions C56_invalid.
Print Assumptions C56_mentions.
Print Assumptions C56_reported.
