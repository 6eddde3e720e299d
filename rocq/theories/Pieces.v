(** Raw values are pieces of the document: whatever is read, every raw value in
    it is a stretch of the text, and the budget is as before. *)
From Coq Require Import String Ascii NArith ZArith Lia Bool List.
From Coq Require Import ZifyBool ZifyNat ZifyN.
From Verif Require Import Base Facts Value Data Parse De Wp EnvOk LexSafe DeSafe Layout LexWs Lit LexRead Repr Inv.
Import ListNotations.
Open Scope N_scope.
Open Scope list_scope.
Open Scope m_scope.

(** [P] holds of every raw value in [v] *)
Fixpoint each_raw (P : str -> Prop) (v : val) : Prop :=
  match v with
  | VRaw r => P r
  | VSome v | VNewtype _ v | VNewVariant _ _ v => each_raw P v
  | VSeq l | VTuple l | VTupleStruct _ l | VTupVariant _ _ l => all (each_raw P) l
  | VMap es => all (fun kv => each_raw P (fst kv) /\ each_raw P (snd kv)) es
  | VStruct _ fs | VStructVariant _ _ fs => all (fun kv => each_raw P (snd kv)) fs
  | _ => True
  end.
(** [r] stands somewhere in [text] *)
Definition piece (text r : str) : Prop := exists a b, text = a ++ r ++ b.

(** [r] is a document by itself, with the default options *)
Definition accepted {E : Env} (r : str) : Prop := exists x s, from_str opts_default any_value r = Ok x s.

Lemma each_raw_embed P x : each_raw P (embed x).
Proof.
  revert x. fix IH 1. intros [b|c|m|[k z|k z]| |v|s|b|l|]; cbn [embed embed_num each_raw]; auto.
  - induction m as [|[k v] m H]; cbn; auto.
  - induction l as [|v l H]; cbn; auto.
Qed.
Lemma all_cons {A} (P : A -> Prop) a l : all P (a :: l) <-> P a /\ all P l.
Proof. reflexivity. Qed.

Lemma range_fields_each {E : Env} P : forall fs ns l, range_fields fs ns = Some l -> all (fun kv => each_raw P (snd kv)) l.
Proof.
  induction fs as [|[f U] fs IH]; intros [|n ns] l H; try discriminate; cbn in H; [now injection H as <-|].
  destruct (num_into n U) as [v|] eqn:Q; [|discriminate]. destruct (range_fields fs ns) as [l'|] eqn:Q'; [|discriminate].
  injection H as <-. cbn. split; [|eapply IH; exact Q'].
  unfold num_into in Q. destruct U, n; try discriminate Q;
    try (match type of Q with (if ?c then _ else _) = _ => destruct c end); try discriminate Q; injection Q as <-; exact Logic.I.
Qed.

Section Pieces.
Context {E : Env} {X : XidOk E}.
Variable T : str.
Definition gives {A} (m : M A) (Q : A -> Prop) : Prop := forall s, inv T s ->
  match m s with Ok a s' => inv T s' /\ lim s' = lim s /\ Q a | _ => True end.
Notation any := (fun _ => True).

Lemma gives_ok {A} (m : M A) Q s a s' : gives m Q -> inv T s -> m s = Ok a s' -> inv T s' /\ lim s' = lim s /\ Q a.
Proof. intros H I R. specialize (H s I). now rewrite R in H. Qed.
Lemma gives_weaken {A} (m : M A) (Q Q' : A -> Prop) : (forall a, Q a -> Q' a) -> gives m Q -> gives m Q'.
Proof. intros W H s I. specialize (H s I). destruct (m s); auto. destruct H as (? & ? & ?). auto. Qed.
Lemma gives_ret {A} (a : A) (Q : A -> Prop) : Q a -> gives (ret a) Q.
Proof. intros H s I. cbn. auto. Qed.
Lemma gives_fail {A} e (Q : A -> Prop) : gives (fail e) Q.
Proof. intros s I. exact Logic.I. Qed.
Lemma gives_bind {A B} (m : M A) (k : A -> M B) Q R : gives m Q -> (forall a, Q a -> gives (k a) R) -> gives (bind m k) R.
Proof.
  intros H K s I. specialize (H s I). unfold bind. destruct (m s) as [a s1| | |]; auto. destruct H as (I1 & L1 & QA).
  specialize (K a QA s1 I1). destruct (k a s1); auto. rewrite <- L1. exact K.
Qed.
Lemma gives_get {B} (k : st -> M B) Q : (forall s, gives (k s) Q) -> gives (bind get k) Q.
Proof. intros K s. apply K. Qed.
Lemma gives_total {A} (m : M A) : total m -> gives m any.
Proof.
  intros H s I. destruct (m s) eqn:Q; auto. assert (D := total_ok _ _ _ _ _ H I Q). split; [apply D|]. split; [apply D|auto].
Qed.
Lemma gives_safe {A} (m : M A) P : safe T P m -> (forall s, P s) -> gives m any.
Proof.
  intros H HP s I. specialize (H s I (HP s)). Transparent wp. unfold wp in H. Opaque wp. destruct (m s); auto.
  split; [apply H|]. split; [apply H|auto].
Qed.
Lemma gives_modify f : (forall s, inv T s -> inv T (f s)) -> (forall s, lim (f s) = lim s) -> gives (modify f) any.
Proof. intros H L s I. cbn. auto. Qed.
Lemma gives_nt (f : st -> bool) : gives (modify (fun s => set_nt (f s) s)) any.
Proof. apply gives_modify; intros s; [intros I; exact I|reflexivity]. Qed.
Lemma gives_map_err {A} f (m : M A) Q : gives m Q -> gives (map_err f m) Q.
Proof. intros H s I. specialize (H s I). unfold map_err, try. destruct (m s); cbn; auto. Qed.
Lemma gives_guard {A} r (m : M A) Q : gives m Q -> gives (guard_with r m) Q.
Proof.
  intros H s I. unfold guard_with. destruct (lim s) as [[|l]|] eqn:L; [exact Logic.I| |].
  - specialize (H (set_lim (Some l) s) I). destruct (m _) as [a s1| | |]; auto. destruct H as (I1 & L1 & QA).
    cbn [lim set_lim] in *. rewrite L1. cbn. auto.
  - specialize (H s I). rewrite L in H. exact H.
Qed.
Lemma gives_seq {A B} (m : M A) (k : M B) Q : gives m any -> gives k Q -> gives (m ;;; k) Q.
Proof. intros H K. eapply gives_bind; [exact H|auto]. Qed.

Ltac gt := apply gives_total; first [apply total_skip_ws|apply total_consume_char|apply total_consume_str|apply total_consume_ident
  |apply total_consume_struct_name|apply total_has_element|apply total_comma|apply total_src|apply total_ret|apply total_check_char|apply total_range_prologue
  |apply total_parse_bool|apply total_integer|apply total_float|apply total_parse_char|apply total_parse_string].
Ltac gv1 :=
  match goal with
  | |- gives (bind get _) _ => apply gives_get; intros ?
  | |- gives (bind (modify _) _) _ => apply gives_seq; [first [apply gives_nt|apply (gives_nt (fun _ => false))]|]
  | |- gives (bind (guard _) _) _ => eapply gives_bind; [apply gives_guard; eassumption|intros ? ?]
  | |- gives (bind (guard_r _) _) _ => eapply gives_bind; [apply gives_guard; eassumption|intros ? ?]
  | |- gives (bind (if _ then _ else _) _) _ => apply gives_bind with (Q := any); [|intros ? _]
  | |- gives (bind _ _) _ => apply gives_bind with (Q := any); [solve [gt]|intros ? _]
  | |- gives (map_err _ _) _ => apply gives_map_err
  | |- gives (fail _) _ => apply gives_fail
  | |- gives (guard_r _) _ => apply gives_guard; eassumption
  | |- gives (ret _) _ => apply gives_ret; cbn; auto
  | |- gives (match ?x with _ => _ end) _ => destruct x
  | |- gives _ (fun _ => True) => solve [gt]
  end.
Ltac gv := repeat gv1.

Lemma gives_element {A} t (m : M A) h Q : gives m Q -> gives (next_element t m h) (fun p => match fst p with Some a => Q a | None => True end).
Proof. intros H. unfold next_element. gv. Qed.
Lemma gives_seq_loop {A} n t (m : M A) Q : gives m Q -> forall h, gives (seq_loop n t m h) (all Q).
Proof.
  intros H. induction n as [|n IH]; intros h; cbn [seq_loop]; [intros s I; exact Logic.I|].
  eapply gives_bind; [apply gives_element, H|]. intros [[a|] c] QA; [|gv]. cbn in QA.
  eapply gives_bind; [apply IH|]. intros l QL. apply gives_ret. now cbn.
Qed.
Lemma gives_seq_all {A} t (m : M A) Q : gives m Q -> gives (seq_all t m) (all Q).
Proof. intros H. unfold seq_all. eapply gives_bind with (Q := any); [gt|]. intros r _. now apply gives_seq_loop. Qed.
Lemma gives_tuple (rec : ty -> M val) Ts Q : (forall U, gives (rec U) Q) -> forall i h, gives (tuple_elems (map rec Ts) i h) (all Q).
Proof.
  intros H. induction Ts as [|U Ts IH]; intros i h; cbn [map tuple_elems]; [gv|].
  eapply gives_bind; [apply gives_element, H|]. intros [[a|] c] QA; [|gv]. cbn in QA.
  eapply gives_bind; [apply IH|]. intros l QL. apply gives_ret. now cbn.
Qed.
Lemma gives_key {A} t (m : M A) h Q : gives m Q -> gives (next_key t m h) (fun p => match p with Some a => Q a | None => True end).
Proof. intros H. unfold next_key. gv. Qed.
Lemma gives_value {A} (m : M A) Q : gives m Q -> gives (next_value m) (fun p => Q (fst p)).
Proof. intros H. unfold next_value. gv. Qed.
Lemma gives_map_loop {A B} n t (k : M A) (m : M B) Q R : gives k Q -> gives m R ->
  forall h, gives (map_loop n t k m h) (all (fun kv => Q (fst kv) /\ R (snd kv))).
Proof.
  intros HK H. induction n as [|n IH]; intros h; cbn [map_loop]; [intros s I; exact Logic.I|].
  eapply gives_bind; [apply gives_key, HK|]. intros [a|] QA; [|gv]. cbn in QA.
  eapply gives_bind; [apply gives_value, H|]. intros p QP.
  eapply gives_bind; [apply IH|]. intros l QL. apply gives_ret. cbn. auto.
Qed.
Lemma gives_map_all {A B} t (k : M A) (m : M B) Q R : gives k Q -> gives m R ->
  gives (map_all t k m) (all (fun kv => Q (fst kv) /\ R (snd kv))).
Proof. intros HK H. unfold map_all. eapply gives_bind with (Q := any); [gt|]. intros r _. now apply gives_map_loop. Qed.
Lemma gives_at {A} (m : M A) : (forall n b l, safe T (at_ n b l) m) -> gives m any.
Proof.
  intros H s I. specialize (H (length (rest s)) true (lim s) s I). Transparent wp. unfold wp in H. Opaque wp.
  assert (P : at_ (length (rest s)) true (lim s) s) by (split; [auto|split; [discriminate|reflexivity]]). specialize (H P).
  destruct (m s); auto. split; [apply H|]. split; [apply H|auto].
Qed.
Lemma gives_identifier : gives de_identifier any.
Proof. apply gives_at. intros. apply safe_identifier. Qed.
Lemma gives_any_value : gives any_value any.
Proof. apply gives_at. intros. apply safe_any_value. Qed.

Lemma gives_de_seq {A} (m : M A) Q : gives m Q -> gives (de_seq m) Q.
Proof. intros H. unfold de_seq. gv. Qed.
Lemma gives_de_tuple {A} (m : M A) Q : gives m Q -> gives (de_tuple m) Q.
Proof. intros H. unfold de_tuple. gv. Qed.
Lemma gives_de_map {A} (m : M A) Q : gives m Q -> gives (de_map m) Q.
Proof. intros H. unfold de_map. gv. Qed.
Lemma gives_struct {A} n (m : M A) Q : gives m Q -> gives (struct_after_name n m) Q.
Proof.
  intros H. assert (H' : forall f, gives (map_err f m) Q) by (intros f; now apply gives_map_err). unfold struct_after_name.
  gv1. eapply gives_bind with (Q := any); [gv|]. intros b _. gv1; [|gv]. gv1.
  eapply gives_bind; [apply gives_guard, H'|]. intros a QA. gv.
Qed.
Lemma gives_option {A} (a : A) m (Q : A -> Prop) : Q a -> gives m Q -> gives (de_option a m) Q.
Proof. intros HA H. unfold de_option. gv. Qed.
Lemma gives_newtype {A} n (m : M A) Q : gives m Q -> gives (de_newtype n m) Q.
Proof. intros H. unfold de_newtype. gv. Qed.

(** a raw value is the text from where the last stretch of layout began *)
Lemma gives_raw : gives de_raw (fun r => piece T r /\ accepted r).
Proof.
  intros s I. destruct (de_raw s) as [ron s1| | |] eqn:H1; auto.
  assert (D0 : dok T s s1).
  { assert (W := safe_de_raw T (fun _ => True) s I Logic.I). Transparent wp. unfold wp in W. Opaque wp. now rewrite H1 in W. }
  split; [apply D0|]. split; [apply D0|].
  unfold de_raw in H1. apply bind_ok in H1 as (before & s2 & H2 & H1). injection H2 as <- <-.
  apply bind_ok in H1 as (u & s2 & H2 & H1). apply bind_ok in H1 as (x & s3 & H3 & H1).
  apply bind_ok in H1 as (u' & s4 & H4 & H1). apply bind_ok in H1 as (after & s5 & H5 & H1). apply src_ok in H5 as [-> ->].
  apply bind_ok in H1 as (un & s5 & H5 & H1). unfold has_unclosed_line_comment in H5. injection H5 as <- <-.
  match goal with H : (if ?b then _ else _) _ = _ |- _ => destruct b; [now apply fail_ok in H|] end.
  apply bind_ok in H1 as (ron' & s5 & H5 & H1). unfold slice_before in H5.
  destruct (Nat.leb _ _); [|discriminate]. apply of_slice_ok in H5 as [B ->].
  destruct (from_str opts_default any_value ron') as [x0 s0| | |] eqn:AC; try discriminate H1. apply ret_ok in H1 as [<- <-]. split; [|now exists x0, s0].
  assert (PT : suf (pre_ws s) T) by apply I. destruct PT as [pa Ha].
  assert (HP : suf (rest s) (pre_ws s)) by apply I.
  assert (HS : suf (rest s1) (pre_ws s)).
  { eapply suf_trans; [|exact HP]. apply D0. }
  destruct HS as [p Hp]. rewrite Hp, blen_app, Nat.add_sub, btake_app in B. injection B as <-.
  exists pa, (rest s1). rewrite Ha, Hp. reflexivity.
Qed.
Notation raws := (each_raw (fun r => piece T r /\ accepted r)).
Lemma gives_struct_loop rec deny fields n : (forall U, gives (rec U) raws) -> forall acc h, all (fun kv => raws (snd kv)) acc ->
  gives (struct_loop rec deny fields n acc h) (all (fun kv => raws (snd kv))).
Proof.
  intros H. induction n as [|n IH]; intros acc h HA; cbn [struct_loop]; [intros s I; exact Logic.I|].
  eapply gives_bind with (Q := any).
  { eapply gives_weaken; [|apply gives_key with (Q := any)]; [auto|]. unfold field_key.
    eapply gives_bind; [apply gives_identifier|]. intros k _. gv. }
  intros [k|] _; [|gv]. destruct (assoc k fields) as [U|].
  - destruct (assoc k acc); [gv|]. eapply gives_bind; [apply gives_value, H|]. intros p QP. apply IH. cbn. auto.
  - eapply gives_bind; [apply gives_value, gives_any_value|]. intros p QP. now apply IH.
Qed.
Lemma assoc_all {A} (P : A -> Prop) k (l : list (str * A)) a : all (fun kv => P (snd kv)) l -> assoc k l = Some a -> P a.
Proof.
  induction l as [|[k' a'] l IH]; [discriminate|]. cbn. intros [H1 H2]. destruct (str_eqb k k'); [now intros [= <-]|auto].
Qed.
Lemma gives_collect is_opt l acc : all (fun kv => raws (snd kv)) acc -> gives (collect is_opt l acc) (all (fun kv => raws (snd kv))).
Proof.
  intros H. induction l as [|[k U] l IH]; cbn [collect]; [gv|].
  eapply gives_bind with (Q := raws).
  { destruct (assoc k acc) eqn:Q; [|gv]. apply gives_ret. eapply assoc_all; eassumption. }
  intros v QV. eapply gives_bind; [apply IH|]. intros l' QL. apply gives_ret. cbn. auto.
Qed.
Lemma gives_struct_body rec deny fields is_opt : (forall U, gives (rec U) raws) ->
  gives (struct_body rec deny fields is_opt) (all (fun kv => raws (snd kv))).
Proof.
  intros H. unfold struct_body. gv1. eapply gives_bind; [apply gives_struct_loop; [exact H|exact Logic.I]|]. intros acc HA. now apply gives_collect.
Qed.
Section Typed.
Variable tenv : nat -> ty.
Lemma gives_step rec t : (forall U, gives (rec U) raws) -> gives (de_step tenv rec t) raws.
Proof.
  intros H. assert (HV : forall (f : list val -> val) m, gives m (all raws) -> (forall l, all raws l -> raws (f l)) -> gives (l <- m ;; ret (f l)) raws).
  { intros f m HM HF. eapply gives_bind; [exact HM|]. intros l QL. apply gives_ret; auto. }
  assert (HW : forall (f : val -> val) U, (forall v, raws v -> raws (f v)) -> gives (v <- rec U ;; ret (f v)) raws).
  { intros f U HF. eapply gives_bind; [apply H|]. intros l QL. apply gives_ret; auto. }
  destruct t; cbn [de_step]; try solve [gv].
  - eapply gives_bind with (Q := any); [apply gives_at; intros; apply safe_de_bytes|]. intros l _. gv.
  - apply gives_seq; [apply gives_at; intros; apply safe_de_unit|]. gv.
  - apply gives_seq; [apply gives_at; intros; apply safe_de_unit_struct|]. gv.
  - apply gives_option; [exact Logic.I|]. now apply HW.
  - apply gives_newtype. now apply HW.
  - apply gives_de_seq. apply HV; [apply gives_seq_all, H|auto].
  - apply gives_de_tuple. apply HV; [apply gives_tuple, H|auto].
  - gv1. eapply gives_bind with (Q := any); [gv|]. intros b _. apply gives_map_err, gives_de_tuple. apply HV; [apply gives_tuple, H|auto].
  - apply gives_de_map. eapply gives_bind; [apply gives_map_all; apply H|]. intros l QL. apply gives_ret. exact QL.
  - eapply gives_bind with (Q := any); [gt|]. intros [ns|] _.
    + destruct (range_fields _ ns) as [l|] eqn:Q; [|gv]. apply gives_ret. cbn. eapply range_fields_each; exact Q.
    + gv1. eapply gives_bind with (Q := any); [gv|]. intros b _. gv1. apply gives_struct.
      eapply gives_bind; [apply gives_struct_body, H|]. intros l QL. apply gives_ret. exact QL.
  - gv1. apply gives_map_err, gives_guard. gv1.
    eapply gives_bind with (Q := any).
    { apply gives_guard. eapply gives_bind; [apply gives_identifier|]. intros k _. gv. }
    intros [k w] _. destruct w.
    + gv.
    + gv1. gv1. gv1. gv1; [|gv]. gv1. gv1. eapply gives_bind; [apply gives_guard, gives_map_err, H|]. intros v QV. gv.
    + gv1. apply gives_de_tuple. apply HV; [apply gives_tuple, H|auto].
    + gv1. gv1. apply gives_map_err, gives_struct.
      eapply gives_bind; [apply gives_struct_body, H|]. intros l QL. apply gives_ret. exact QL.
  - eapply gives_bind; [apply gives_any_value|]. intros x _. apply gives_ret. apply each_raw_embed.
  - apply gives_seq; [apply gives_any_value|]. gv.
  - eapply gives_bind; [apply gives_raw|]. intros r QR. now apply gives_ret.
  - apply H.
Qed.
Theorem gives_ty f : forall t, gives (de_ty tenv f t) raws.
Proof. induction f as [|f IH]; intros t; [intros s I; exact Logic.I|]. cbn [de_ty]. now apply gives_step. Qed.
End Typed.
End Pieces.
