(** Weakest preconditions for the parser monad, and exact descriptions of its
    primitive operations. *)
From Coq Require Import String Ascii NArith ZArith Lia Bool List.
From Coq Require Import ZifyBool ZifyNat ZifyN.
From Verif Require Import Base Facts Parse.
Import ListNotations.
Open Scope N_scope.
Open Scope list_scope.
Open Scope m_scope.

(** [m] neither panics nor runs out of fuel from [s], and its outcome satisfies
    [Q] or [R]. *)
Definition wp {A} (m : M A) (Q : A -> st -> Prop) (R : err -> st -> Prop) (s : st) : Prop :=
  match m s with
  | Ok a s' => Q a s'
  | Err e s' => R e s'
  | Panic => False
  | OutOfFuel => False
  end.

Lemma wp_conseq {A} (m : M A) (Q Q' : A -> st -> Prop) (R R' : err -> st -> Prop) s :
  wp m Q R s -> (forall a s', Q a s' -> Q' a s') -> (forall e s', R e s' -> R' e s') ->
  wp m Q' R' s.
Proof. unfold wp. destruct (m s); auto. Qed.

Lemma wp_bind {A B} (m : M A) (k : A -> M B) Q R s :
  wp m (fun a s' => wp (k a) Q R s') R s -> wp (bind m k) Q R s.
Proof. unfold wp, bind. destruct (m s); auto. Qed.

Lemma wp_try {A B} (m : M A) (k : A -> M B) (h : err -> M B) Q R s :
  wp m (fun a s' => wp (k a) Q R s') (fun e s' => wp (h e) Q R s') s -> wp (try m k h) Q R s.
Proof. unfold wp, try. destruct (m s); auto. Qed.

Lemma wp_map_err {A} f (m : M A) Q R s :
  wp m Q (fun e s' => R (f e) s') s -> wp (map_err f m) Q R s.
Proof. unfold wp, map_err, try, ret, fail. destruct (m s); auto. Qed.

Lemma wp_ret {A} (a : A) (Q : A -> st -> Prop) R s : Q a s -> wp (ret a) Q R s.
Proof. auto. Qed.
Lemma wp_fail {A} e (Q : A -> st -> Prop) (R : err -> st -> Prop) s : R e s -> wp (fail e) Q R s.
Proof. auto. Qed.
Lemma wp_get (Q : st -> st -> Prop) R s : Q s s -> wp get Q R s.
Proof. auto. Qed.
Lemma wp_modify f (Q : unit -> st -> Prop) R s : Q tt (f s) -> wp (modify f) Q R s.
Proof. auto. Qed.
Lemma wp_ok {A} (m : M A) (Q : A -> st -> Prop) R s a s' : m s = Ok a s' -> Q a s' -> wp m Q R s.
Proof. unfold wp. now intros ->. Qed.
Lemma wp_err {A} (m : M A) (Q : A -> st -> Prop) (R : err -> st -> Prop) s e s' :
  m s = Err e s' -> R e s' -> wp m Q R s.
Proof. unfold wp. now intros ->. Qed.
Lemma wp_bind_ok {A B} (m : M A) (k : A -> M B) Q R s a s' :
  m s = Ok a s' -> wp (k a) Q R s' -> wp (bind m k) Q R s.
Proof. intros H. unfold wp, bind. now rewrite H. Qed.
Lemma wp_of_slice {A} (o : option A) (Q : A -> st -> Prop) R s a :
  o = Some a -> Q a s -> wp (of_slice o) Q R s.
Proof. intros ->. auto. Qed.
Lemma wp_and {A} (m : M A) Q Q' R R' s :
  wp m Q R s -> wp m Q' R' s -> wp m (fun a s' => Q a s' /\ Q' a s') (fun e s' => R e s' /\ R' e s') s.
Proof. unfold wp. destruct (m s); tauto. Qed.

(** ** The invariant: all cursors point into the text [T], and the tracked
    whitespace starts before the cursor *)
Definition inv (T : str) (s : st) : Prop :=
  suf (rest s) (pre_ws s) /\ suf (pre_ws s) T /\ suf (prev s) T.

(** the parser leaves the deserializer's part of the state alone *)
Definition kept (s s' : st) : Prop :=
  ext s' = ext s /\ nt s' = nt s /\ lim s' = lim s /\ last_id s' = last_id s.
Definition adv (T : str) (s s' : st) : Prop :=
  inv T s' /\ suf (rest s') (rest s) /\ kept s s'.

Lemma kept_refl s : kept s s.
Proof. unfold kept. auto. Qed.
Lemma kept_trans a b c : kept a b -> kept b c -> kept a c.
Proof. unfold kept. intuition congruence. Qed.
Lemma adv_refl T s : inv T s -> adv T s s.
Proof. intros. split; [assumption|]. split; [apply suf_refl|apply kept_refl]. Qed.
Lemma adv_trans T a b c : adv T a b -> adv T b c -> adv T a c.
Proof.
  intros (_ & S & K) (I & S' & K'). split; [assumption|].
  split; [eapply suf_trans; eassumption|eapply kept_trans; eassumption].
Qed.
Lemma adv_inv T a b : adv T a b -> inv T b.
Proof. now intros []. Qed.
Lemma inv_rest T s : inv T s -> suf (rest s) T.
Proof. intros (A & B & _). eapply suf_trans; eassumption. Qed.

(** the state after [advance_bytes] *)
Definition moved (r : str) (s : st) : st := set_rest r (set_prev (rest s) s).
Lemma inv_moved T r s : inv T s -> suf r (rest s) -> inv T (moved r s).
Proof.
  intros H S. assert (X := inv_rest _ _ H). destruct H as (A & B & C).
  unfold inv, moved. cbn. repeat split; auto. eapply suf_trans; eassumption.
Qed.
Lemma adv_moved T r s : inv T s -> suf r (rest s) -> adv T s (moved r s).
Proof. intros. split; [now apply inv_moved|]. split; [assumption|]. unfold kept. auto. Qed.
Lemma inv_set_rest T r s : inv T s -> suf r (rest s) -> inv T (set_rest r s).
Proof.
  intros H S. destruct H as (A & B & C).
  unfold inv. cbn. repeat split; auto. eapply suf_trans; eassumption.
Qed.
Lemma adv_set_rest T r s : inv T s -> suf r (rest s) -> adv T s (set_rest r s).
Proof. intros. split; [now apply inv_set_rest|]. split; [assumption|]. unfold kept. auto. Qed.

Lemma kept_moved s r : kept s (moved r s).
Proof. unfold kept. auto. Qed.

Section WithEnv.
Context {E : Env}.

(** ** Primitives *)

Lemma advance_ok s n p r : rest s = p ++ r -> blen p = n -> advance_bytes n s = Ok tt (moved r s).
Proof. intros H <-. unfold advance_bytes, moved. now rewrite H, bdrop_app. Qed.

Lemma consume_str_eq p s :
  consume_str p s = match strip_prefix p (rest s) with
                    | Some r => Ok true (moved r s)
                    | None => Ok false s
                    end.
Proof.
  unfold consume_str, bind, check_str, starts_with.
  destruct (strip_prefix p (rest s)) as [r|] eqn:X; [|reflexivity].
  apply strip_prefix_some in X. now rewrite (advance_ok _ _ p r).
Qed.
Lemma consume_char_eq c s :
  consume_char c s = match rest s with
                     | d :: r => if d =? c then Ok true (moved r s) else Ok false s
                     | [] => Ok false s
                     end.
Proof.
  unfold consume_char, bind, check_char.
  destruct (rest s) as [|d r] eqn:X; [reflexivity|].
  destruct (d =? c) eqn:D; [|reflexivity]. apply N.eqb_eq in D as ->.
  rewrite (advance_ok _ _ [c] r); [reflexivity|assumption|cbn; lia].
Qed.
Lemma next_while_eq p s :
  next_chars_while_len p s = Ok (blen (takewhile p (rest s))) s.
Proof. unfold next_chars_while_len, next_chars_while_from_len, bind, src, of_slice. now rewrite bdrop_0. Qed.
Lemma next_while_from_eq p s a r n : rest s = a ++ r -> blen a = n ->
  next_chars_while_from_len n p s = Ok (blen (takewhile p r)) s.
Proof.
  intros H <-. unfold next_chars_while_from_len, bind, src, of_slice. now rewrite H, bdrop_app.
Qed.
Lemma advance_while p s :
  advance_bytes (blen (takewhile p (rest s))) s = Ok tt (moved (dropwhile p (rest s)) s).
Proof. unfold advance_bytes. now rewrite bdrop_takewhile. Qed.

(** is the identifier [w] at the start of the text? *)
Definition ident_at (w r : str) : bool :=
  match strip_prefix w r with Some t => negb (next_is_xid_continue t) | None => false end.
Lemma check_ident_eq w s : check_ident w s = Ok (ident_at w (rest s)) s.
Proof.
  unfold check_ident, check_str, bind, ident_at, starts_with, check_ident_other_char, src.
  destruct (strip_prefix w (rest s)) as [t|] eqn:X; [|reflexivity].
  apply strip_prefix_some in X. cbv beta iota. unfold bind. rewrite X, bdrop_app. reflexivity.
Qed.
Lemma consume_ident_eq w s :
  consume_ident w s =
  if ident_at w (rest s)
  then match strip_prefix w (rest s) with Some t => Ok true (moved t s) | None => Panic end
  else Ok false s.
Proof.
  unfold consume_ident, bind. rewrite check_ident_eq.
  destruct (ident_at w (rest s)) eqn:X; [|reflexivity]. unfold ident_at in X.
  destruct (strip_prefix w (rest s)) as [t|] eqn:Y; [|discriminate].
  apply strip_prefix_some in Y. now rewrite (advance_ok _ _ w t).
Qed.
Lemma ident_at_app w r : starts_not xid_continue r -> ident_at w (w ++ r) = true.
Proof.
  unfold ident_at. rewrite strip_prefix_app. unfold next_is_xid_continue, starts_not.
  destruct r; [reflexivity|]. now intros ->.
Qed.
Lemma consume_ident_true w s r : rest s = w ++ r -> starts_not xid_continue r ->
  consume_ident w s = Ok true (moved r s).
Proof. intros H N. rewrite consume_ident_eq, H, ident_at_app, strip_prefix_app; auto. Qed.
Lemma consume_ident_false w s : ident_at w (rest s) = false -> consume_ident w s = Ok false s.
Proof. intros H. now rewrite consume_ident_eq, H. Qed.
Lemma consume_ident_cases w s :
  (exists r, rest s = w ++ r /\ consume_ident w s = Ok true (moved r s)) \/
  consume_ident w s = Ok false s.
Proof.
  rewrite consume_ident_eq. destruct (ident_at w (rest s)) eqn:X; [|auto]. unfold ident_at in X.
  destruct (strip_prefix w (rest s)) as [t|] eqn:Y; [|discriminate].
  apply strip_prefix_some in Y. eauto.
Qed.

End WithEnv.

Global Opaque wp.
