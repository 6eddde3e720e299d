(** Reading an adjacently tagged enum is safe: it neither panics nor runs out
    of fuel. *)
From Coq Require Import String Ascii NArith ZArith Lia Bool List.
From Verif Require Import Base Facts Value Data Parse De Span Wp EnvOk LexSafe DeSafe IntoRust Content ContentSafe Tagged TaggedSafe Adjacent Fuel ConvFuel.
Import ListNotations.
Open Scope N_scope.
Open Scope list_scope.
Open Scope m_scope.

Section WithEnv.
Context {E : Env} {X : XidOk E}.
Variable tenv : nat -> ty.
Variable T : str.
Notation ok s m := (wp m (fun _ s' => dok T s s') (fun _ s' => derr T s s') s).
Definition fine {A} (m : M A) : Prop := forall s, inv T s -> ok s m.

Lemma fine_gd {A} (m : M A) n l : fine m -> gd (fun l => safe T (at_ n false l) m) l.
Proof. intros F. apply gd_all. intros l' s I _. now apply F. Qed.
Lemma fine_bind {A B} (m : M A) (k : A -> M B) : fine m -> (forall a, fine (k a)) -> fine (bind m k).
Proof. intros H K s I. apply wp_step; [now apply H|]. intros a s' D. apply K, D. Qed.
Lemma fine_ret {A} (a : A) : fine (ret a).
Proof. intros s I. now apply wp_ret, dok_refl. Qed.
Lemma fine_fail {A} e : fine (@fail A e).
Proof. intros s I. now apply wp_fail, derr_refl. Qed.
Lemma fine_safe {A} (m : M A) : (forall n b l, safe T (at_ n b l) m) -> fine m.
Proof. intros H s I. apply (H (length (rest s)) true (lim s)); [assumption|]. split; [lia|]. split; [discriminate|reflexivity]. Qed.
Lemma fine_tuple {A} (m : M A) : (forall n l, safe T (at_ n false l) m) -> fine (de_tuple m).
Proof. intros H s I. apply wp_de_tuple with (length (rest s)); [assumption|destruct (nt s); lia|]. intros _. now apply gd_all. Qed.
Lemma fine_named {A} name (m : M A) : (forall n l, safe T (at_ n false l) m) -> fine (struct_after_name name m).
Proof. intros H s I. apply wp_struct_after_name with (length (rest s)); [assumption|destruct (nt s); lia|]. intros _. now apply gd_all. Qed.

(** ** A struct from anything *)
Section Struct.
Variable rec : ty -> M val.
Variable deny : bool.
Variable fields : list (str * ty).
Hypothesis REC : forall p, In p fields -> fine (rec (snd p)).

Lemma fields_loop_safe n l term k : forall acc had s, inv T s -> at_ n false l s -> (length (rest s) + 1 <= k)%nat ->
  ok s (fields_loop rec deny fields k term acc had).
Proof.
  induction k as [|k IH]; intros acc had s I P L; [lia|]. cbn [fields_loop].
  assert (FK : fine (field_key deny fields)).
  { unfold field_key. apply fine_bind; [apply fine_safe; intros; apply safe_identifier|].
    intros i. destruct (assoc i fields); [apply fine_ret|]. destruct deny; [apply fine_fail|apply fine_ret]. }
  apply wp_bind. eapply wp_conseq; [apply (next_key_safe T n l term _ had s (fine_gd _ n l FK) I P)| |auto]. cbn beta.
  intros [a|] s1 [D1 _]; [|now apply wp_ret].
  assert (P1 := at_dok _ _ _ _ _ _ P D1). assert (Y1 := dok_len _ _ _ D1).
  eapply wp_conseq with (Q := fun _ s' => dok T s1 s') (R := fun _ s' => derr T s1 s').
  2:{ cbn. intros. eapply dok_trans; eassumption. }
  2:{ cbn. intros. eapply dok_derr_trans; eassumption. }
  assert (STEP : forall C (m : M C) (k' : C * bool -> M (list (str * val))), fine m ->
    (forall p s2, dok T s1 s2 -> (length (rest s2) < length (rest s1))%nat -> ok s2 (k' p)) -> ok s1 (p <- next_value m ;; k' p)).
  { intros C m k' Fm K. apply wp_bind.
    eapply wp_conseq; [apply (next_value_safe T n l m s1 (fine_gd _ n l Fm)); [apply D1|exact P1]| |auto].
    cbn beta. intros p s2 [D2 L2]. eapply wp_conseq; [apply (K p s2 D2 L2)| |]; cbn; intros;
      [eapply dok_trans|eapply dok_derr_trans]; eassumption. }
  destruct (assoc a fields) as [t|] eqn:AS.
  - destruct (assoc a acc); [apply wp_fail, derr_refl, D1|]. apply STEP.
    + apply (REC (a, t)). now apply assoc_in.
    + intros p s2 D2 L2. apply IH; [apply D2|eapply at_dok; eassumption|lia].
  - apply STEP; [apply fine_safe; intros; apply safe_any_value|].
    intros p s2 D2 L2. apply IH; [apply D2|eapply at_dok; eassumption|lia].
Qed.
Lemma fields_map_safe n l term : safe T (at_ n false l) (fields_map tenv rec deny fields term).
Proof.
  intros s I P. unfold fields_map. eapply wp_bind_ok; [reflexivity|]. apply wp_step.
  - apply (fields_loop_safe n l); [assumption|assumption|lia].
  - intros acc s1 D1. apply wp_token; [apply D1|apply collect_total].
Qed.
Lemma range_struct_fine m : fine m -> fine (range_struct tenv deny fields m).
Proof.
  intros F. unfold range_struct. apply fine_bind; [exact F|]. intros x. destruct x; try apply fine_fail.
  match goal with |- fine (match ?c with _ => _ end) => assert (C : c <> CFuel) end.
  { apply bind_ends; [|intros; apply fill_ends]. apply entries_end. intros f t x _. destruct x; try discriminate. destruct (num_into _ _); discriminate. }
  destruct (cbind _ _); [apply fine_ret|apply fine_fail|congruence].
Qed.
Lemma any_struct_body_fine : fine (any_struct_body tenv rec deny fields).
Proof.
  unfold any_struct_body. apply fine_bind; [intros s I; apply wp_token; [assumption|apply total_check_struct_type]|].
  intros []; try apply fine_fail; try (apply fine_tuple; intros; apply safe_fail). apply fine_named. intros. apply fields_map_safe.
Qed.
Lemma any_struct_fine : fine (any_struct tenv rec deny fields).
Proof.
  intros s I. unfold any_struct.
  apply wp_bind, wp_consume_ident with T; [assumption|intros; now apply refused|].
  apply wp_bind, wp_consume_ident with T; [assumption|intros; now apply refused|].
  eapply wp_bind_ok; [apply check_ident_eq|].
  destruct (ident_at s_Some (rest s)) eqn:SM.
  { apply wp_step; [|intros; apply wp_fail, derr_refl; apply H]. apply wp_de_option with (b := true); [assumption|discriminate| |].
    - intros n L'. apply gd_all. intros l'. apply safe_fail.
    - rewrite SM. discriminate. }
  apply wp_bind, wp_consume_ident with T; [assumption|intros; now apply refused|].
  apply wp_bind, wp_consume_str with T; [assumption|intros; now apply refused|].
  intros _.
  assert (FR : forall r k b, rest s = r -> adv T s (moved k s) ->
     wp (range_struct tenv deny fields (float_range_or_value b)) (fun _ s' => dok T s s') (fun _ s' => derr T s s') (moved k s)).
  { intros r k b _ A1. eapply wp_conseq; [apply range_struct_fine; [|apply A1]| |].
    - intros s0 I0. apply (wp_token T); [assumption|apply total_float_range].
    - cbn; intros; eapply dok_trans; try eassumption; now apply adv_dok.
    - cbn; intros; eapply dok_derr_trans; try eassumption; now apply adv_dok. }
  apply wp_bind, wp_consume_ident with T; [assumption|intros; apply wp_bind, wp_ret; eapply FR; eauto|].
  apply wp_bind, wp_consume_ident with T; [assumption|intros; eapply FR; eauto|].
  apply wp_bind, wp_consume_ident with T; [assumption|intros; eapply FR; eauto|].
  apply wp_bind, wp_consume_ident with T; [assumption|intros; apply wp_bind, wp_ret; eapply FR; eauto|].
  apply wp_bind, wp_consume_ident with T; [assumption|intros; eapply FR; eauto|].
  apply wp_bind, wp_consume_ident with T; [assumption|intros; eapply FR; eauto|].
  apply wp_bind. eapply wp_conseq; [apply skip_identifier_total, I| |]; [|cbn; tauto]. cbn beta.
  intros id s1 (A1 & L1 & N1). destruct id as [id|].
  { apply then_safe; [now apply adv_dok|apply wp_token; [apply A1|apply total_skip_ws]|]. intros _ s2 I2. now apply any_struct_body_fine. }
  rewrite (N1 eq_refl) in *. clear s1 A1 L1 N1.
  apply wp_step; [apply wp_token; [assumption|apply total_peek_char_or_eof]|]. intros c s1 D1. assert (I1 := proj1 D1).
  destruct (c =? c_lp); [now apply any_struct_body_fine|].
  destruct (c =? c_lb).
  { apply wp_de_seq with (length (rest s1)); [assumption|lia|]. intros _. apply gd_all. intros. apply safe_fail. }
  destruct (c =? c_lc).
  { apply wp_de_map with (length (rest s1)); [assumption|lia|]. intros _. apply gd_all. intros. apply fields_map_safe. }
  destruct (_ || (c =? c_b)).
  { apply range_struct_fine; [|assumption]. intros s2 I2. apply (safe_any_number_or_bytes T (length (rest s2)) true (lim s2)); [assumption|].
    split; [lia|]. split; [discriminate|reflexivity]. }
  destruct (_ || _).
  { apply wp_token; [assumption|]. apply total_bind; [apply total_parse_string|intros; apply total_fail]. }
  destruct (c =? c_sq).
  { apply wp_token; [assumption|]. apply total_bind; [apply total_parse_char|intros; apply total_fail]. }
  apply wp_fail. now apply derr_refl.
Qed.
End Struct.

(** ** The enum *)
Variable fuel : nat.
Variables tag content : str.
Variable deny : bool.
Variable ename : str.
Variable variants : list (str * avariant).
Variable rank : nat -> nat.
Definition adepth (w : avariant) : nat :=
  match w with
  | AUnit => 0%nat
  | ANew t => S (tdepth rank t)
  | ATup ts => list_max (map (tdepth rank) ts)
  | AStruct _ fs => list_max (map (fun p => tdepth rank (snd p)) fs)
  end.
Hypothesis RK : ranked tenv rank.
Hypothesis DEEP : forall p, In p variants -> (adepth (snd p) < fuel)%nat.

Lemma de_ty_fine t : (tdepth rank t <= fuel)%nat -> fine (de_ty tenv fuel t).
Proof.
  intros L s I. apply (de_ty_safe tenv T fuel t (lim s) (length (rest s)) true); [now apply fuel_ranked with rank|assumption|].
  split; [lia|]. split; [discriminate|reflexivity].
Qed.
Lemma adjacent_key_fine : fine (adjacent_key tag content deny).
Proof.
  unfold adjacent_key. apply fine_bind; [apply fine_safe; intros; apply safe_identifier|]. intros k.
  destruct (str_eqb k tag); [apply fine_ret|]. destruct (str_eqb k content); [apply fine_ret|]. destruct deny; [apply fine_fail|apply fine_ret].
Qed.
Lemma relevant_key_safe n l k : forall had s, inv T s -> at_ n false l s -> (length (rest s) + 1 <= k)%nat -> ok s (relevant_key tag content deny k had).
Proof.
  induction k as [|k IH]; intros had s I P L; [lia|]. cbn [relevant_key].
  apply wp_bind. eapply wp_conseq; [apply (next_key_safe T n l c_rp _ had s (fine_gd _ n l adjacent_key_fine) I P)| |auto]. cbn beta.
  intros [a|] s1 [D1 _]; [|now apply wp_ret].
  assert (P1 := at_dok _ _ _ _ _ _ P D1). assert (Y1 := dok_len _ _ _ D1).
  destruct a; try now apply wp_ret.
  apply wp_bind. eapply wp_conseq; [apply (next_value_safe T n l any_value s1); [apply fine_gd, fine_safe; intros; apply safe_any_value|apply D1|exact P1]| |].
  2:{ cbn. intros. eapply dok_derr_trans; eassumption. }
  cbn beta. intros p s2 [D2 L2]. assert (D := dok_trans _ _ _ _ D1 D2).
  eapply wp_conseq; [apply (IH (snd p) s2)| |]; cbn beta.
  - apply D2.
  - eapply at_dok; eassumption.
  - lia.
  - intros o s3 D3. eapply dok_trans; eassumption.
  - intros e s3 D3. eapply dok_derr_trans; eassumption.
Qed.

(** an enum of unit variants is read as one of them *)
Definition units : ty := TEnum ename (map (fun p => (fst p, WUnit)) variants).
Lemma units_assoc k w : assoc k (map (fun p : str * avariant => (fst p, WUnit)) variants) = Some w -> w = WUnit.
Proof. intros H. apply assoc_in, in_map_iff in H as (p & H & _). now injection H as <- <-. Qed.
Definition yields {A} (m : M A) (R : A -> Prop) : Prop := forall s v s', m s = Ok v s' -> R v.
Lemma yields_bind {A B} (m : M A) (k : A -> M B) R Q : yields m Q -> (forall a, Q a -> yields (k a) R) -> yields (bind m k) R.
Proof. intros H K s v s' HS. unfold bind in HS. destruct (m s) as [a s1| | |] eqn:M1; try discriminate. eapply K; [|exact HS]. eapply H; exact M1. Qed.
Lemma yields_any {A} (m : M A) : yields m (fun _ => True).
Proof. now intros s v s' _. Qed.
Lemma yields_guard {A} b (m : M A) R : yields m R -> yields (guard_with b m) R.
Proof.
  intros H s v s' HS. unfold guard_with in HS. destruct (lim s) as [[|l]|]; [discriminate| |now apply H in HS].
  destruct (m _) as [a s1| | |] eqn:M1; try discriminate. injection HS as <- _. eapply H; exact M1.
Qed.
Lemma yields_map_err {A} f (m : M A) R : yields m R -> yields (map_err f m) R.
Proof. intros H s v s' HS. unfold map_err, try in HS. destruct (m s) as [a s1| | |] eqn:M1; try discriminate. injection HS as <- _. eapply H; exact M1. Qed.
Lemma units_result : yields (de_step tenv (fun _ => oof) units) (fun v => exists k, v = VUnitVariant ename k).
Proof.
  unfold units. cbn [de_step]. eapply yields_bind; [apply yields_any|]. intros _ _. apply yields_map_err, yields_guard.
  eapply yields_bind; [apply yields_any|]. intros _ _.
  eapply yields_bind with (Q := fun p => snd p = WUnit).
  - apply yields_guard. eapply yields_bind; [apply yields_any|]. intros k _. destruct (assoc k _) as [w|] eqn:AS; [|discriminate].
    intros s v s' HS. injection HS as <- _. now apply units_assoc in AS.
  - intros [k w] HW. cbn in HW. subst w. intros s v s' HS. injection HS as <- _. now exists k.
Qed.
Lemma units_fine : fine (de_step tenv (fun _ => oof) units).
Proof.
  apply fine_safe. intros n b l. apply (de_step_safe tenv T (fun _ _ _ _ => False)); [tauto|]. unfold units. cbn [step_ok].
  destruct n; cbn [inner]; [exact Logic.I|]. apply gd_all. intros l' p IN. apply in_map_iff in IN as (q & <- & _). exact Logic.I.
Qed.
#[local] Transparent wp.
Lemma wp_yields {A} (m : M A) Q R Z s : wp m Q R s -> yields m Z -> wp m (fun a s' => Q a s' /\ Z a) R s.
Proof. unfold wp. intros W Y. destruct (m s) eqn:M1; auto. split; [exact W|]. eapply Y; exact M1. Qed.
#[local] Opaque wp.
Lemma adjacent_tag_fine : fine (adjacent_tag tenv ename variants).
Proof.
  intros s I. unfold adjacent_tag. apply wp_bind. eapply wp_conseq; [apply (wp_yields _ _ _ _ s (units_fine s I) units_result)| |auto].
  cbn beta. intros v s1 [D1 [k ->]]. destruct (assoc k variants); [now apply wp_ret|apply wp_fail; now apply dok_derr].
Qed.
Lemma adjacent_tag_known : yields (adjacent_tag tenv ename variants) (fun p => In p variants).
Proof.
  unfold adjacent_tag. eapply yields_bind; [apply yields_any|]. intros v _. destruct v; try discriminate.
  destruct (assoc _ variants) eqn:AS; [|discriminate]. intros s v s' HS. injection HS as <- _. now apply assoc_in.
Qed.
Lemma adjacent_value_fine p : In p variants -> fine (adjacent_value tenv fuel ename p).
Proof.
  intros IN. apply DEEP in IN. unfold adjacent_value. destruct (snd p) as [|t|ts|d fs]; cbn [adepth] in IN.
  - apply fine_bind; [apply fine_safe; intros; apply safe_any_value|]. intros x. destruct x; first [apply fine_ret|apply fine_fail].
  - apply fine_bind; [apply de_ty_fine; lia|]. intros; apply fine_ret.
  - apply fine_tuple. intros n l. apply safe_bind; [|intros; apply safe_ret]. apply tuple_elems_safe. apply Forall_forall.
    intros m IM. apply in_map_iff in IM as (t & <- & IM). apply fine_gd, de_ty_fine. apply (in_depth (tdepth rank) ts); [exact IM|lia].
  - apply fine_bind; [|intros; apply fine_ret]. apply any_struct_fine. intros q IQ. apply de_ty_fine.
    apply (in_depth (fun p => tdepth rank (snd p)) fs q fuel IQ). lia.
Qed.
Lemma of_adjacent_ends p x : In p variants -> of_adjacent tenv fuel ename p x <> CFuel.
Proof.
  intros IN. apply DEEP in IN. unfold of_adjacent. destruct (snd p) as [|t|ts|d fs]; cbn [adepth] in IN.
  - destruct x; discriminate.
  - apply bind_ends; [|discriminate]. apply (of_owned_ends tenv rank RK). lia.
  - destruct x; try discriminate. apply bind_ends; [|discriminate]. apply exact_ends. intros m y IM. apply in_map_iff in IM as (t & <- & IM).
    apply (of_owned_ends tenv rank RK). enough (tdepth rank t <= list_max (map (tdepth rank) ts))%nat by lia. now apply (in_depth (tdepth rank) ts).
  - destruct x; try discriminate. apply bind_ends; [|discriminate]. apply fields_end. intros f t y IM.
    apply (of_owned_ends tenv rank RK). enough (tdepth rank t <= list_max (map (fun p => tdepth rank (snd p)) fs))%nat by lia.
    now apply (in_depth (fun p => tdepth rank (snd p)) fs (f, t)).
Qed.
Lemma no_content_fine p : fine (no_content tenv content ename p).
Proof. unfold no_content. destruct (snd p); try apply fine_ret; try apply fine_fail. destruct (is_option _ _); [apply fine_ret|apply fine_fail]. Qed.

Lemma no_more_safe n l k had v s : inv T s -> at_ n false l s -> (length (rest s) + 1 <= k)%nat -> ok s (no_more tag content deny k had v).
Proof.
  intros I P L. unfold no_more. apply wp_step; [now apply (relevant_key_safe n l)|].
  intros [[]|] s1 D1; [apply wp_fail, derr_refl, D1|apply wp_fail, derr_refl, D1|apply wp_ret, dok_refl, D1].
Qed.
(** a value, and then the rest *)
Lemma value_then {A B} n l (m : M A) (k : A * bool -> M B) (Z : A -> Prop) s : inv T s -> at_ n false l s -> fine m -> yields m Z ->
  (forall p s1, inv T s1 -> at_ n false l s1 -> (length (rest s1) <= length (rest s))%nat -> Z (fst p) -> ok s1 (k p)) -> ok s (p <- next_value m ;; k p).
Proof.
  intros I P F Y K. apply wp_bind. eapply wp_conseq.
  - apply (wp_yields _ _ _ (fun p => Z (fst p)) s (next_value_safe T n l m s (fine_gd _ n l F) I P)).
    unfold next_value. eapply yields_bind; [apply yields_any|]. intros _ _. eapply yields_bind; [apply yields_any|]. intros [] _; [|discriminate].
    eapply yields_bind; [apply yields_any|]. intros _ _. eapply yields_bind; [apply yields_guard, Y|]. intros a HA. eapply yields_bind; [apply yields_any|].
    intros c _ s1 v s2 HS. now injection HS as <- _.
  - cbn beta. intros p s1 [[D1 L1] HZ]. eapply wp_conseq; [apply (K p s1); [apply D1|eapply at_dok; eassumption|lia|exact HZ]| |]; cbn; intros;
      [eapply dok_trans|eapply dok_derr_trans]; eassumption.
  - auto.
Qed.
Lemma key_then {B} n l k had (c : option bool -> M B) s : inv T s -> at_ n false l s -> (length (rest s) + 1 <= k)%nat ->
  (forall o s1, inv T s1 -> at_ n false l s1 -> (length (rest s1) <= length (rest s))%nat -> ok s1 (c o)) -> ok s (o <- relevant_key tag content deny k had ;; c o).
Proof.
  intros I P L K. apply wp_step; [now apply (relevant_key_safe n l)|]. intros o s1 D1.
  apply K; [apply D1|eapply at_dok; eassumption|apply (dok_len _ _ _ D1)].
Qed.
Lemma adjacent_body_safe n l : safe T (at_ n false l) (adjacent_body tenv fuel tag content deny ename variants).
Proof.
  intros s I P. unfold adjacent_body. eapply wp_bind_ok; [reflexivity|]. cbv zeta.
  apply (key_then n l); [assumption|assumption|lia|]. intros o s1 I1 P1 L1. destruct o as [[]|]; [| |now apply fine_fail].
  - apply (value_then n l _ _ (fun p => In p variants)); [assumption|assumption|apply adjacent_tag_fine|apply adjacent_tag_known|].
    intros p s2 I2 P2 L2 IN. apply (key_then n l); [assumption|assumption|lia|]. intros o s3 I3 P3 L3.
    destruct o as [[]|]; [now apply fine_fail| |now apply no_content_fine].
    apply (value_then n l _ _ (fun _ => True)); [assumption|assumption|now apply adjacent_value_fine|apply yields_any|].
    intros q s4 I4 P4 L4 _. apply (no_more_safe n l); [assumption|assumption|lia].
  - apply (value_then n l _ _ (fun _ => True)); [assumption|assumption|apply fine_safe; intros; apply safe_content_value|apply yields_any|].
    intros p s2 I2 P2 L2 _. apply (key_then n l); [assumption|assumption|lia|]. intros o s3 I3 P3 L3.
    destruct o as [[]|]; [|now apply fine_fail|now apply fine_fail].
    apply (value_then n l _ _ (fun p => In p variants)); [assumption|assumption|apply adjacent_tag_fine|apply adjacent_tag_known|].
    intros q s4 I4 P4 L4 IN. destruct (of_adjacent _ _ _ _ _) eqn:OA; [| |now apply of_adjacent_ends in OA].
    + eapply wp_bind_ok; [reflexivity|]. apply (no_more_safe n l); [assumption|assumption|lia].
    + apply wp_bind. apply wp_fail. now apply derr_refl.
Qed.
Theorem de_adjacent_fine : fine (de_adjacent tenv fuel tag content deny ename variants).
Proof.
  unfold de_adjacent. apply fine_bind; [intros s I; apply wp_token; [assumption|apply total_range_prologue]|].
  intros [ns|]; [apply fine_fail|]. intros s I. apply wp_bind, wp_get. apply wp_step.
  { destruct (nt s); apply wp_token; try exact I; [apply total_ret|apply total_consume_struct_name]. }
  intros _ s1 D1. apply wp_step; [apply wp_token; [apply D1|apply total_skip_ws]|].
  intros _ s2 D2. apply fine_named; [|apply D2]. intros. apply adjacent_body_safe.
Qed.
End WithEnv.
