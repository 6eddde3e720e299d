(** More fuel changes nothing: what [de_any] returns with some fuel it returns
    with any more of it. *)
From Coq Require Import String Ascii NArith ZArith Lia Bool List.
From Coq Require Import ZifyBool ZifyNat ZifyN.
From Verif Require Import Base Facts Value Data Parse De Wp EnvOk LexSafe DeSafe.
Import ListNotations.
Open Scope N_scope.
Open Scope list_scope.
Open Scope m_scope.

Definition more {A} (m m' : M A) : Prop := forall s, m s = OutOfFuel \/ m' s = m s.
Lemma more_refl {A} (m : M A) : more m m.
Proof. intros s. now right. Qed.
Lemma more_oof {A} (m : M A) : more oof m.
Proof. intros s. now left. Qed.
Lemma more_bind {A B} (m m' : M A) (k k' : A -> M B) : more m m' -> (forall a, more (k a) (k' a)) -> more (bind m k) (bind m' k').
Proof.
  intros H K s. unfold bind. destruct (H s) as [-> | ->]; [now left|]. destruct (m s); auto. apply K.
Qed.
Lemma more_guard {A} r (m m' : M A) : more m m' -> more (guard_with r m) (guard_with r m').
Proof.
  intros H s. unfold guard_with. destruct (lim s) as [[|l]|]; auto. destruct (H (set_lim (Some l) s)) as [-> | ->]; auto.
Qed.
Lemma more_map_err {A} f (m m' : M A) : more m m' -> more (map_err f m) (map_err f m').
Proof. intros H s. unfold map_err, try. destruct (H s) as [-> | ->]; auto. Qed.

Section S.
Context {E : Env}.
Create HintDb more.
Ltac mo1 :=
  match goal with
  | |- more ?a ?a => exact (more_refl a)
  | H : more ?a ?b |- more ?a ?b => exact H
  | |- more (bind _ _) (bind _ _) => apply more_bind; [|intros ?]
  | |- more (map_err _ _) _ => apply more_map_err
  | |- more (guard _) _ => apply more_guard
  | |- more (guard_r _) _ => apply more_guard
  | |- _ => solve [auto 3 with more]
  | |- more (match ?x with _ => _ end) _ => destruct x
  end.
Ltac mo := cbv zeta; repeat mo1.

Lemma more_next_element {A} t (m m' : M A) h : more m m' -> more (next_element t m h) (next_element t m' h).
Proof. intros H. unfold next_element. mo. Qed.
#[local] Hint Resolve more_next_element : more.
Lemma more_seq_loop {A} t (m m' : M A) n : more m m' -> forall h, more (seq_loop n t m h) (seq_loop n t m' h).
Proof. intros H. induction n as [|n IH]; intros h; cbn [seq_loop]; mo. Qed.
#[local] Hint Resolve more_seq_loop : more.
Lemma more_seq_all {A} t (m m' : M A) : more m m' -> more (seq_all t m) (seq_all t m').
Proof. intros H. unfold seq_all. mo. Qed.
Lemma more_next_key {A} t (m m' : M A) h : more m m' -> more (next_key t m h) (next_key t m' h).
Proof. intros H. unfold next_key. mo. Qed.
Lemma more_next_value {A} (m m' : M A) : more m m' -> more (next_value m) (next_value m').
Proof. intros H. unfold next_value. mo. Qed.
#[local] Hint Resolve more_seq_all more_next_key more_next_value : more.
Lemma more_map_loop {A B} t (k k' : M A) (v v' : M B) n : more k k' -> more v v' -> forall h, more (map_loop n t k v h) (map_loop n t k' v' h).
Proof. intros H V. induction n as [|n IH]; intros h; cbn [map_loop]; mo. Qed.
#[local] Hint Resolve more_map_loop : more.
Lemma more_map_all {A B} t (k k' : M A) (v v' : M B) : more k k' -> more v v' -> more (map_all t k v) (map_all t k' v').
Proof. intros H V. unfold map_all. mo. Qed.
Lemma more_seq {A} (m m' : M A) : more m m' -> more (de_seq m) (de_seq m').
Proof. intros H. unfold de_seq. mo. Qed.
Lemma more_tuple {A} (m m' : M A) : more m m' -> more (de_tuple m) (de_tuple m').
Proof. intros H. unfold de_tuple. mo. Qed.
Lemma more_map {A} (m m' : M A) : more m m' -> more (de_map m) (de_map m').
Proof. intros H. unfold de_map. mo. Qed.
Lemma more_struct {A} n (m m' : M A) : more m m' -> more (struct_after_name n m) (struct_after_name n m').
Proof. intros H. unfold struct_after_name. mo. Qed.
Lemma more_option {A} (a : A) m m' : more m m' -> more (de_option a m) (de_option a m').
Proof. intros H. unfold de_option. mo. Qed.
Ltac mo2 :=
  match goal with
  | |- _ => mo1
  | |- more (seq_all _ _) _ => apply more_seq_all
  | |- more (map_all _ _ _) _ => apply more_map_all
  | |- more (de_seq _) _ => apply more_seq
  | |- more (de_tuple _) _ => apply more_tuple
  | |- more (de_map _) _ => apply more_map
  | |- more (struct_after_name _ _) _ => apply more_struct
  | |- more (de_option _ _) _ => apply more_option
  end.
Lemma more_any_main m m' : more m m' -> more (any_main m) (any_main m').
Proof. intros H. unfold any_main. cbv zeta. repeat mo2. Qed.
#[local] Hint Resolve more_any_main : more.
(** one level of [de_any] *)
Definition any_level (any : M value) : M value :=
  s <- get ;;
  if nt s then
    rp <- check_char c_rp ;;
    if rp then de_unit ;;; ret XUnit
    else
      t <- check_struct_type false true ;;
      match t with
      | Named => struct_after_name [] (l <- map_all c_rp (k <- de_identifier ;; ret (XStr k)) any ;; ret (XMap l))
      | EmptyTuple | NonNewtypeTuple => de_tuple (l <- seq_all c_rp any ;; ret (XSeq l))
      | _ => modify (set_nt false) ;;; any_main any
      end
  else any_main any.
Lemma de_any_level f : de_any (S f) = any_level (de_any f).
Proof. reflexivity. Qed.
Lemma more_any_level m m' : more m m' -> more (any_level m) (any_level m').
Proof. intros H. unfold any_level. repeat mo2. Qed.
Lemma more_any_step f : more (de_any f) (de_any (S f)).
Proof.
  induction f as [|f IH]; [apply more_oof|]. rewrite !de_any_level in *. apply more_any_level.
  destruct f as [|f]; [apply more_oof|]. rewrite !de_any_level in *. exact IH.
Qed.
Lemma more_trans {A} (a b c : M A) : more a b -> more b c -> more a c.
Proof. intros H K s. destruct (H s) as [H1|H1]; [now left|]. destruct (K s) as [K1|K1]; [left|right]; congruence. Qed.
Lemma more_any f g : (f <= g)%nat -> more (de_any f) (de_any g).
Proof.
  induction 1 as [|g L IH]; [apply more_refl|]. eapply more_trans; [exact IH|apply more_any_step].
Qed.
(** whatever the fuel, [any_value] has enough of it *)
Lemma any_value_enough {X : XidOk E} T f s x s1 : inv T s -> de_any f s = Ok x s1 -> any_value s = Ok x s1.
Proof.
  intros I H. assert (W := safe_any_value T (fun _ => True) s I Logic.I). Transparent wp. unfold wp in W. Opaque wp.
  unfold any_value in *. unfold bind, src in *. set (g := (2 * length (rest s) + 3)%nat) in *. clearbody g.
  destruct (Nat.le_ge_cases f g) as [L|L].
  - destruct (more_any f g L s) as [Q|Q]; [congruence|]. rewrite Q. exact H.
  - destruct (more_any g f L s) as [Q|Q]; [rewrite Q in W; contradiction|]. congruence.
Qed.
End S.
