(** Reasoning about the serializer, and the layout it writes. *)
From Coq Require Import String Ascii NArith ZArith Lia Bool List.
From Coq Require Import ZifyBool ZifyNat ZifyN.
From Verif Require Import Base Facts Value Data Parse De Ser Layout LexWs DocRead Lit SerLex Repr.
Import ListNotations.
Open Scope N_scope.
Open Scope list_scope.
Open Scope sm_scope.

(** On a writer that does not fail, from a serializer with indentation [i],
    newtype variant flag [b] and implicit some depth [d]: if [m] succeeds, it
    has appended a text related by [Q] to the result and to those three
    afterwards.  It never panics. *)
Definition em {A} (m : SM A) (i : nat) (b : bool) (d : nat) (Q : A -> str -> nat -> bool -> nat -> Prop) : Prop :=
  forall s, w_cap s = None -> s_indent s = i -> s_nt s = b -> s_isd s = d ->
  match m s with
  | SOk a s' => exists t, w_out s' = w_out s ++ t /\ w_cap s' = None /\ Q a t (s_indent s') (s_nt s') (s_isd s')
  | SErr _ _ => True
  | SPanic => False
  end.

Lemma em_conseq {A} (m : SM A) i b d (Q Q' : A -> str -> nat -> bool -> nat -> Prop) :
  em m i b d Q -> (forall a t i' b' d', Q a t i' b' d' -> Q' a t i' b' d') -> em m i b d Q'.
Proof.
  intros H HQ s C I N D. specialize (H s C I N D). destruct (m s) as [a s'| |]; auto.
  destruct H as (t & O & C' & H). exists t. auto.
Qed.
Lemma em_bind {A B} (m : SM A) (k : A -> SM B) i b d Q1 (Q : B -> str -> nat -> bool -> nat -> Prop) :
  em m i b d Q1 ->
  (forall a t i' b' d', Q1 a t i' b' d' -> em (k a) i' b' d' (fun x t' i2 b2 d2 => Q x (t ++ t') i2 b2 d2)) ->
  em (sbind m k) i b d Q.
Proof.
  intros H HK s C I N D. unfold sbind. specialize (H s C I N D). destruct (m s) as [a s'| |]; auto.
  destruct H as (t & O & C' & H). specialize (HK a t _ _ _ H s' C' eq_refl eq_refl eq_refl).
  destruct (k a s') as [x s2| |]; auto. destruct HK as (t' & O' & C2 & H').
  exists (t ++ t'). split; [rewrite O', O; apply app_assoc_reverse|]. auto.
Qed.
Lemma em_ret {A} (a : A) i b d (Q : A -> str -> nat -> bool -> nat -> Prop) : Q a [] i b d -> em (sret a) i b d Q.
Proof. intros H s C I N D. subst. exists []. rewrite app_nil_r. auto. Qed.
Lemma em_fail {A} e i b d (Q : A -> str -> nat -> bool -> nat -> Prop) : em (sfail e) i b d Q.
Proof. intros s C I N D. exact Logic.I. Qed.
Lemma em_emits m t i b d (Q : unit -> str -> nat -> bool -> nat -> Prop) : emits m t -> Q tt t i b d -> em m i b d Q.
Proof. intros H HQ s C I N D. rewrite H by assumption. exists t. subst. repeat split; auto. Qed.
Lemma em_write t i b d (Q : unit -> str -> nat -> bool -> nat -> Prop) : Q tt t i b d -> em (write t) i b d Q.
Proof. apply em_emits, emits_write. Qed.
Lemma em_get {B} (k : sst -> SM B) i b d Q :
  (forall s, s_indent s = i -> s_nt s = b -> s_isd s = d -> em (k s) i b d Q) -> em (sbind sget k) i b d Q.
Proof. intros H s C I N D. unfold sbind, sget. now apply (H s). Qed.
(** the other fields of the state play no role *)
Lemma em_mod f i b d (Q : unit -> str -> nat -> bool -> nat -> Prop) :
  (forall s, w_out (f s) = w_out s /\ w_cap (f s) = w_cap s) ->
  (forall s, s_indent s = i -> s_nt s = b -> s_isd s = d -> Q tt [] (s_indent (f s)) (s_nt (f s)) (s_isd (f s))) ->
  em (smod f) i b d Q.
Proof.
  intros H HQ s C I N D. unfold smod. exists []. destruct (H s) as [H1 H2]. rewrite app_nil_r. repeat split; auto. congruence.
Qed.
Lemma em_mod_bind {B} f (k : SM B) i b d i' b' d' Q :
  (forall s, w_out (f s) = w_out s /\ w_cap (f s) = w_cap s) ->
  (forall s, s_indent s = i -> s_nt s = b -> s_isd s = d -> s_indent (f s) = i' /\ s_nt (f s) = b' /\ s_isd (f s) = d') ->
  em k i' b' d' Q -> em (smod f ;~ k) i b d Q.
Proof.
  intros H HS HK. eapply em_bind with (Q1 := fun _ t i2 b2 d2 => t = [] /\ i2 = i' /\ b2 = b' /\ d2 = d').
  - apply em_mod; [exact H|]. intros s I N D. destruct (HS s I N D) as (? & ? & ?). auto.
  - intros _ t i2 b2 d2 (-> & -> & -> & ->). exact HK.
Qed.
Lemma em_write_bind {B} t (k : SM B) i b d Q :
  em k i b d (fun x t' i2 b2 d2 => Q x (t ++ t') i2 b2 d2) -> em (write t ;~ k) i b d Q.
Proof.
  intros H. eapply em_bind with (Q1 := fun _ t' i2 b2 d2 => t' = t /\ i2 = i /\ b2 = b /\ d2 = d).
  - now apply em_write.
  - intros _ t' i2 b2 d2 (-> & -> & -> & ->). exact H.
Qed.
Lemma em_ret_bind {A B} (a : A) (k : A -> SM B) i b d Q : em (k a) i b d Q -> em (sbind (sret a) k) i b d Q.
Proof. intros H s. exact (H s). Qed.
Lemma em_guard {A} (m : SM A) i b d Q : em m i b d Q -> em (sguard m) i b d Q.
Proof.
  intros H s C I N D. unfold sguard. destruct (s_lim s) as [[|l]|]; [exact Logic.I| |now apply H].
  specialize (H (sset_lim (Some l) s) C I N D). destruct (m (sset_lim (Some l) s)) as [a s'| |]; auto.
Qed.

(** ** Layout *)
Section Config.
Context {E : Env}.
Variable o : opts.
Variable cfg : option pconf.
Hypothesis VC : valid_config cfg.

(** writes layout only, and changes the indentation to [i'] *)
Definition lays (m : SM unit) (i i' : nat) : Prop :=
  forall b d, em m i b d (fun _ t i2 b2 d2 => layout t /\ i2 = i' /\ b2 = b /\ d2 = d).
Lemma lays_ret i : lays (sret tt) i i.
Proof. intros b d. apply em_ret. repeat constructor. Qed.
Lemma lays_write t i : layout t -> lays (write t) i i.
Proof. intros L b d. apply em_write. auto. Qed.
Lemma lays_seq m k i i1 i2 : lays m i i1 -> lays k i1 i2 -> lays (m ;~ k) i i2.
Proof.
  intros H1 H2 b d. eapply em_bind; [apply H1|]. cbn beta. intros _ t i' b' d' (L & -> & -> & ->).
  eapply em_conseq; [apply H2|]. cbn beta. intros _ t' i' b' d' (L' & -> & -> & ->). split; [now apply layout_app|auto].
Qed.
Lemma lays_bind {B} m (k : SM B) i i1 b d Q : lays m i i1 ->
  (forall w, layout w -> em k i1 b d (fun x t i2 b2 d2 => Q x (w ++ t) i2 b2 d2)) -> em (m ;~ k) i b d Q.
Proof.
  intros H HK. eapply em_bind; [apply H|]. cbn beta. intros _ t i' b' d' (L & -> & -> & ->). now apply HK.
Qed.
Lemma lays_n n t i : layout t -> lays (swrite_n n t) i i.
Proof.
  intros L. induction n as [|n IH]; cbn [swrite_n]; [apply lays_ret|]. eapply lays_seq; [now apply lays_write|exact IH].
Qed.
Definition up (i : nat) : nat := match cfg with None => i | Some _ => S i end.
Lemma lays_start i : lays (start_indent cfg) i (up i).
Proof.
  unfold start_indent, up, valid_config in *. destruct cfg as [p|]; [|apply lays_ret]. destruct VC as (W1 & W2 & W3).
  intros b d. eapply em_mod_bind with (i' := S i) (b' := b) (d' := d); [auto|intros s <- <- <-; auto|].
  apply em_get. intros s _ _ _. destruct (within p (s_indent s)); [|apply lays_ret].
  destruct (s_is_empty s) as [[|]|]; [apply lays_ret|..]; apply lays_write; now apply ws_str_layout.
Qed.
Lemma lays_indent i : lays (indent cfg) i i.
Proof.
  unfold indent, valid_config in *. destruct cfg as [p|]; [|apply lays_ret]. destruct VC as (W1 & W2 & W3).
  intros b d. apply em_get. intros s _ _ _. destruct (within p (s_indent s)); [|apply lays_ret].
  apply lays_n. now apply ws_str_layout.
Qed.
Lemma lays_end i : lays (end_indent cfg) (up i) i.
Proof.
  unfold end_indent, up, valid_config in *. destruct cfg as [p|]; [|apply lays_ret]. destruct VC as (W1 & W2 & W3).
  intros b d. apply em_get. intros s IS _ _. rewrite IS.
  assert (L : lays (if within p (S i) then match s_is_empty s with Some true => sret tt | _ => swrite_n (S i - 1) (p_indentor p) end else sret tt) (S i) (S i)).
  { destruct (within p (S i)); [|apply lays_ret]. destruct (s_is_empty s) as [[|]|]; [apply lays_ret|..]; apply lays_n; now apply ws_str_layout. }
  eapply lays_bind; [exact L|]. intros w LW. apply em_mod; [auto|]. intros s' _ <- <-. cbn. rewrite app_nil_r. auto.
Qed.
Definition wider (w : bool) (i : nat) : nat := if w then up i else i.
Lemma lays_open w len i : lays (open_wide cfg w len) i (wider w i).
Proof.
  unfold open_wide, wider. destruct w; [|apply lays_ret].
  intros b d. eapply em_mod_bind with (i' := i) (b' := b) (d' := d); [auto|intros s <- <- <-; auto|]. apply lays_start.
Qed.
Lemma lays_close w i : lays (close_wide cfg w) (wider w i) i.
Proof. unfold close_wide, wider. destruct w; [apply lays_end|apply lays_ret]. Qed.
(** line comments *)
Lemma lines_no_nl s : forall cur, ~ In c_nl cur -> Forall (fun l => ~ In c_nl l) (lines s cur).
Proof.
  assert (RV : forall l, ~ In c_nl l -> ~ In c_nl (rev l)) by (intros l H IN; apply H; now apply in_rev).
  induction s as [|c s IH]; intros cur N; cbn [lines].
  - destruct cur as [|x cur]; [constructor|]. constructor; [now apply RV|constructor].
  - destruct (c =? c_nl) eqn:C.
    + constructor; [|apply IH; intros []].
      unfold strip_cr. rewrite rev_involutive. destruct cur as [|x cur]; [intros []|].
      destruct (x =? 13); apply RV; [intros H; apply N; now right|assumption].
    + apply IH. intros [H|H]; [apply N.eqb_neq in C; congruence|auto].
Qed.
Lemma lays_doc i : lays (doc_lines cfg) i i.
Proof.
  intros b d. unfold doc_lines. apply em_get. intros s _ _ _. destruct (s_meta s) as [[dc fs]|]; [|apply lays_ret].
  assert (N : Forall (fun l => ~ In c_nl l) (lines dc [])) by (apply lines_no_nl; intros []).
  match goal with |- em (_ ?x) _ _ _ _ => change (Forall (fun l => ~ In c_nl l) x) in N; revert N; generalize x end.
  intros ls. clear s. revert b d. induction ls as [|l ls IH]; intros b d N; [apply lays_ret|]. inversion N as [|? ? N1 N2]; subst.
  apply em_write_bind, em_write_bind, em_write_bind.
  eapply lays_bind; [apply lays_indent|]. intros w LW. eapply em_conseq; [apply IH; assumption|]. cbn beta.
  intros _ t i' b' d' (L & -> & -> & ->). split; [|auto].
  change (s_doc_prefix ++ l ++ [c_nl] ++ w ++ t) with (c_slash :: c_slash :: (c_slash :: 32 :: l) ++ c_nl :: (w ++ t)).
  apply l_line; [|now apply layout_app].
  constructor; [discriminate|]. constructor; [discriminate|]. apply Forall_forall. intros c IN ->. contradiction.
Qed.

(** the comma after the last element *)
Definition ending (t : str) : Prop := t = [] \/ exists w, layout w /\ t = c_comma :: w.
Lemma em_separator wide i b d : em (separator cfg wide) i b d
  (fun _ t i2 b2 d2 => (exists w, layout w /\ t = c_comma :: w) /\ i2 = i /\ b2 = b /\ d2 = d).
Proof.
  unfold separator, valid_config in *. apply em_write_bind. destruct cfg as [p|].
  - destruct VC as (W1 & W2 & W3). apply em_get. intros s _ _ _.
    destruct (_ && _); apply em_write; (split; [eexists; split; [|reflexivity]; now apply ws_str_layout|auto]).
  - apply em_ret. split; [|auto]. exists []. split; [constructor|reflexivity].
Qed.
Lemma em_trailing wide (first : bool) i b d : em (trailing cfg wide first) i b d
  (fun _ t i2 b2 d2 => (if first then t = [] else ending t) /\ i2 = i /\ b2 = b /\ d2 = d).
Proof.
  unfold trailing, valid_config, ending in *. destruct first; [apply em_ret; auto|]. destruct cfg as [p|]; [|apply em_ret; auto].
  destruct VC as (W1 & W2 & W3). apply em_get. intros s _ _ _.
  destruct (_ && _); [|apply em_ret; auto]. apply em_write_bind, em_write. split; [|auto]. right.
  eexists. split; [|reflexivity]. now apply ws_str_layout.
Qed.

(** ** Loops over elements *)
Section Loop.
Context {A C : Type}.
Variable step : C -> A -> SM C.
Variable isf : C -> bool.
Variable R : A -> str -> Prop.
Fixpoint loop (l : list A) (c : C) : SM C :=
  match l with [] => sret c | a :: l' => c' <~ step c a ;; loop l' c' end.
(** one element, with the comma in front unless it is the first *)
Definition steps (i : nat) (a : A) : Prop := forall c,
  em (step c a) i false 0 (fun c' t i2 b2 d2 => (isf c' = false /\ i2 = i /\ b2 = false /\ d2 = 0%nat) /\
    exists w t0, layout w /\ R a t0 /\ t = (if isf c then [] else [c_comma]) ++ w ++ t0).
Inductive rest_of : list A -> str -> Prop :=
  | ro_nil : rest_of [] []
  | ro_cons a t w l ts : R a t -> layout w -> rest_of l ts -> rest_of (a :: l) (c_comma :: w ++ t ++ ts).
Lemma rest_items l ts : rest_of l ts -> forall a t z z', R a t -> ending z -> layout z' -> items R (a :: l) (t ++ ts ++ z ++ z').
Proof.
  induction 1 as [|a' t' w l ts HA L H IH]; intros a t z z' HT HE LZ.
  - cbn [app]. destruct HE as [->|(w & LW & ->)].
    + now apply it_last.
    + change (t ++ (c_comma :: w) ++ z') with (t ++ c_comma :: w ++ z').
      replace (w ++ z') with ((w ++ z') ++ []) by (now rewrite app_nil_r).
      apply (it_cons R a t [] (w ++ z') [] []); [assumption|constructor|now apply layout_app|constructor].
  - change (t ++ (c_comma :: w ++ t' ++ ts) ++ z ++ z') with (t ++ c_comma :: (w ++ t' ++ ts) ++ z ++ z').
    rewrite <- !app_assoc.
    apply (it_cons R a t [] w (a' :: l)); auto. constructor.
Qed.
Lemma em_loop_rest i l : (forall a, In a l -> steps i a) -> forall c, isf c = false ->
  em (loop l c) i false 0 (fun c' t i2 b2 d2 => (isf c' = false /\ i2 = i /\ b2 = false /\ d2 = 0%nat) /\ rest_of l t).
Proof.
  induction l as [|a l IH]; intros HS c HC; cbn [loop]; [apply em_ret; repeat constructor; assumption|].
  eapply em_bind; [apply (HS a (or_introl eq_refl))|]. cbn beta.
  intros c' t i2 b2 d2 ((F & -> & -> & ->) & w & t0 & LW & RA & ->). rewrite HC.
  eapply em_conseq; [apply IH; [intros; apply HS; now right|exact F]|]. cbn beta.
  intros c2 t i2 b2 d2 (H & RO). split; [exact H|]. cbn [app]. rewrite <- app_assoc. now constructor.
Qed.
(** the elements, the trailing comma and the layout before the closing bracket *)
Lemma em_block {B} i l c wide bw (k : C -> SM B) Q : (forall a, In a l -> steps (wider bw i) a) -> isf c = true ->
  (forall w ti c', layout w -> items R l ti -> em (k c') i false 0 (fun x t i2 b2 d2 => Q x ((w ++ ti) ++ t) i2 b2 d2)) ->
  em (c' <~ loop l c ;; (trailing cfg wide (isf c') ;~ (close_wide cfg bw ;~ k c'))) (wider bw i) false 0 Q.
Proof.
  intros HS HC HK. destruct l as [|a l].
  - cbn [loop]. apply em_ret_bind. rewrite HC. eapply em_bind; [apply em_trailing|]. cbn beta.
    intros _ t i2 b2 d2 (-> & -> & -> & ->). eapply lays_bind; [apply lays_close|]. intros w LW.
    eapply em_conseq; [apply (HK w [] c); [assumption|constructor]|]. cbn beta. intros x t i2 b2 d2. now rewrite app_nil_r.
  - cbn [loop]. eapply em_bind with (Q1 := fun c' t i2 b2 d2 => (isf c' = false /\ i2 = wider bw i /\ b2 = false /\ d2 = 0%nat) /\
      exists w t0 ts, layout w /\ R a t0 /\ rest_of l ts /\ t = w ++ t0 ++ ts).
    + eapply em_bind; [apply (HS a (or_introl eq_refl))|]. cbn beta.
      intros c' t i2 b2 d2 ((F & -> & -> & ->) & w & t0 & LW & RA & ->). rewrite HC.
      eapply em_conseq; [apply em_loop_rest; [intros; apply HS; now right|exact F]|]. cbn beta.
      intros c2 t i2 b2 d2 (H & RO). split; [exact H|]. exists w, t0, t. cbn [app]. rewrite <- app_assoc. auto.
    + cbn beta. intros c' t i2 b2 d2 ((F & -> & -> & ->) & w & t0 & ts & LW & RA & RO & ->). rewrite F.
      eapply em_bind; [apply em_trailing|]. cbn beta. intros _ z i2 b2 d2 (HE & -> & -> & ->).
      eapply lays_bind; [apply lays_close|]. intros z' LZ.
      eapply em_conseq; [apply (HK w (t0 ++ ts ++ z ++ z') c'); [assumption|now apply rest_items]|]. cbn beta.
      intros x t i2 b2 d2. now rewrite <- !app_assoc.
Qed.
End Loop.
End Config.
