(** Successful runs of the parser, step by step. *)
From Coq Require Import String Ascii NArith ZArith Lia Bool List.
From Coq Require Import ZifyBool ZifyNat ZifyN.
From Verif Require Import Base Facts Value Data Parse De Wp EnvOk LexSafe DeSafe Layout LexWs Lit LexRead.
Import ListNotations.
Open Scope N_scope.
Open Scope list_scope.
Open Scope m_scope.

Ltac flat := repeat first [rewrite <- app_assoc|progress cbn [app]].
Tactic Notation "flat" "in" hyp(H) := repeat first [rewrite <- app_assoc in H|progress cbn [app] in H].

Lemma bind_ok {A B} (m : M A) (k : A -> M B) s b s' : bind m k s = Ok b s' ->
  exists a s1, m s = Ok a s1 /\ k a s1 = Ok b s'.
Proof. unfold bind. destruct (m s); try discriminate. eauto. Qed.
Lemma ret_ok {A} (a b : A) s s' : ret a s = Ok b s' -> b = a /\ s' = s.
Proof. intros H. injection H as <- <-. auto. Qed.
Lemma fail_ok {A} x (b : A) s s' : fail x s = Ok b s' -> False.
Proof. discriminate. Qed.
Lemma get_ok s x s' : get s = Ok x s' -> x = s /\ s' = s.
Proof. intros H. injection H as <- <-. auto. Qed.
Lemma src_ok s x s' : src s = Ok x s' -> x = rest s /\ s' = s.
Proof. intros H. injection H as <- <-. auto. Qed.
Lemma modify_ok f s x s' : modify f s = Ok x s' -> s' = f s.
Proof. intros H. injection H as <-. auto. Qed.
Lemma check_char_ok c s x s' : check_char c s = Ok x s' ->
  s' = s /\ (x = true -> exists r, rest s = c :: r).
Proof.
  intros H. injection H as <- <-. split; [reflexivity|]. destruct (rest s); [discriminate|].
  intros Q. apply N.eqb_eq in Q as ->. eauto.
Qed.
Lemma map_err_ok {A} f (m : M A) s a s' : map_err f m s = Ok a s' -> m s = Ok a s'.
Proof. unfold map_err, try. destruct (m s); try discriminate. auto. Qed.
Lemma of_slice_ok {A} (o : option A) s a s' : of_slice o s = Ok a s' -> o = Some a /\ s' = s.
Proof. destruct o; [|discriminate]. intros H. injection H as <- <-. auto. Qed.

Lemma total_ok {A} (m : M A) T s a s' : total m -> inv T s -> m s = Ok a s' -> adv T s s'.
Proof.
  intros H I Q. specialize (H T s I). Transparent wp. unfold wp in H. Opaque wp. now rewrite Q in H.
Qed.
Lemma adv_rest T s s' : adv T s s' -> exists t, rest s = t ++ rest s'.
Proof. intros (_ & S & _). exact S. Qed.

(** the layout [w] in front of [r]; at the end of the text a line comment need
    not be closed *)
Definition lay (w r : str) : Prop := layout w \/ (r = [] /\ final_layout w).
Lemma lay_nil r : lay [] r.
Proof. left. constructor. Qed.
Lemma lay_solid w r : lay w r -> r <> [] -> layout w.
Proof. intros [|[-> _]]; [auto|contradiction]. Qed.
Lemma lay_cons w c r : lay w (c :: r) -> layout w.
Proof. intros H. eapply lay_solid; [exact H|discriminate]. Qed.
Lemma lay_app w v r : lay w (v ++ r) -> lay v r -> lay (w ++ v) r.
Proof.
  intros [L|[Q F]] [L'|[Q' F']].
  - left. now apply layout_app.
  - right. split; [assumption|]. destruct F' as [F'|(w' & t & A1 & A2 & ->)]; [left; now apply layout_app|].
    right. exists (w ++ w'), t. split; [now apply layout_app|]. split; [assumption|]. now rewrite <- app_assoc.
  - apply app_eq_nil in Q as [-> ->]. rewrite app_nil_r. right. auto.
  - apply app_eq_nil in Q as [-> ->]. rewrite app_nil_r. right. auto.
Qed.
Lemma lay_final w r : lay w r -> final_layout w.
Proof. intros [L|[_ F]]; [now left|assumption]. Qed.

(** within the recursion limit *)
Definition within (d : nat) (l : option nat) : Prop := match l with None => True | Some n => (d <= n)%nat end.
Lemma within_0 l : within 0 l.
Proof. destruct l; cbn; [lia|exact Logic.I]. Qed.
Lemma within_max a b l : within a l -> within b l -> within (Nat.max a b) l.
Proof. destruct l; cbn; [lia|auto]. Qed.
Lemma within_le a b l : (a <= b)%nat -> within b l -> within a l.
Proof. destruct l; cbn; [lia|auto]. Qed.

Section Inv.
Context {E : Env} {X : XidOk E}.

Lemma skip_ws_ok T s x s' : inv T s -> skip_ws s = Ok x s' ->
  adv T s s' /\ exists w, rest s = w ++ rest s' /\ lay w (rest s').
Proof.
  intros I H. split; [eapply total_ok; [apply total_skip_ws|exact I|exact H]|].
  destruct x. apply skip_ws_sound in H as (w & Q & [[L _]|R]); exists w; (split; [exact Q|]); [now left|now right].
Qed.
Lemma consume_char_ok T c s b s' : inv T s -> consume_char c s = Ok b s' ->
  adv T s s' /\ if b then rest s = c :: rest s' else s' = s.
Proof.
  intros I H. split; [eapply total_ok; [apply total_consume_char|exact I|exact H]|].
  rewrite consume_char_eq in H. destruct (rest s) as [|d r]; [now injection H as <- <-|].
  destruct (d =? c) eqn:D; injection H as <- <-; [|reflexivity]. apply N.eqb_eq in D as ->. reflexivity.
Qed.
Lemma consume_str_ok T p s b s' : inv T s -> consume_str p s = Ok b s' ->
  adv T s s' /\ if b then rest s = p ++ rest s' else s' = s.
Proof.
  intros I H. split; [eapply total_ok; [apply total_consume_str|exact I|exact H]|].
  rewrite consume_str_eq in H. destruct (strip_prefix p (rest s)) as [r|] eqn:D; injection H as <- <-; [|reflexivity].
  now apply strip_prefix_some in D.
Qed.
Lemma consume_ident_ok T p s b s' : inv T s -> consume_ident p s = Ok b s' ->
  adv T s s' /\ if b then rest s = p ++ rest s' else s' = s.
Proof.
  intros I H. split; [eapply total_ok; [apply total_consume_ident|exact I|exact H]|].
  destruct (consume_ident_cases p s) as [(r & Q & W)|W]; rewrite W in H; injection H as <- <-; [exact Q|reflexivity].
Qed.
Lemma comma_ok T s c s' : inv T s -> comma s = Ok c s' ->
  adv T s s' /\ exists t, rest s = t ++ rest s' /\
    (if c then exists w w', t = w ++ c_comma :: w' /\ layout w /\ lay w' (rest s') else lay t (rest s')).
Proof.
  intros I H. split; [eapply total_ok; [apply total_comma|exact I|exact H]|].
  apply bind_ok in H as (x & s1 & H1 & H). apply skip_ws_ok with (T := T) in H1 as (A1 & w & Q1 & L1); [|exact I].
  apply bind_ok in H as (b & s2 & H2 & H). apply consume_char_ok with (T := T) in H2 as (A2 & Q2); [|apply A1].
  destruct b.
  - apply bind_ok in H as (x' & s3 & H3 & H). apply ret_ok in H as [-> ->].
    apply skip_ws_ok with (T := T) in H3 as (A3 & w' & Q3 & L3); [|apply A2].
    exists (w ++ c_comma :: w'). rewrite Q1, Q2, Q3. split; [now rewrite <- app_assoc|].
    exists w, w'. split; [reflexivity|]. split; [|assumption]. rewrite Q2 in L1. now apply lay_cons in L1.
  - apply ret_ok in H as [-> ->]. subst s2. exists w. auto.
Qed.
End Inv.
