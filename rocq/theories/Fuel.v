(** How much fuel typed deserialization needs, and that more fuel changes
    nothing. *)
From Coq Require Import String Ascii NArith ZArith Lia Bool List.
From Coq Require Import ZifyBool ZifyNat ZifyN.
From Verif Require Import Base Facts Value Data Parse De Wp EnvOk LexSafe DeSafe.
Import ListNotations.
Open Scope N_scope.
Open Scope list_scope.
Open Scope m_scope.

(** ** Refinement: equal unless out of fuel *)

Definition le_m {A} (m m' : M A) : Prop := forall s, m s = OutOfFuel \/ m s = m' s.

Lemma le_refl {A} (m : M A) : le_m m m.
Proof. intros s. now right. Qed.
Lemma le_trans {A} (a b c : M A) : le_m a b -> le_m b c -> le_m a c.
Proof.
  intros H K s. destruct (H s) as [X|X]; [now left|]. destruct (K s) as [Y|Y]; [left|right]; congruence.
Qed.
Lemma le_bind {A B} (m m' : M A) (k k' : A -> M B) :
  le_m m m' -> (forall a, le_m (k a) (k' a)) -> le_m (bind m k) (bind m' k').
Proof.
  intros H K s. unfold bind. destruct (H s) as [X|X]; rewrite X; [now left|].
  destruct (m' s); [apply K| | |]; now right.
Qed.
Lemma le_map_err {A} f (m m' : M A) : le_m m m' -> le_m (map_err f m) (map_err f m').
Proof.
  intros H s. unfold map_err, try. destruct (H s) as [X|X]; rewrite X; [now left|now right].
Qed.
Lemma le_guard_with {A} r (m m' : M A) : le_m m m' -> le_m (guard_with r m) (guard_with r m').
Proof.
  intros H s. unfold guard_with. destruct (lim s) as [[|l]|]; [now right| |apply H].
  destruct (H (set_lim (Some l) s)) as [X|X]; rewrite X; [now left|now right].
Qed.
Lemma le_if {A} (b : bool) (m m' n n' : M A) :
  le_m m m' -> le_m n n' -> le_m (if b then m else n) (if b then m' else n').
Proof. now destruct b. Qed.

Section WithEnv.
Context {E : Env}.

Ltac le :=
  repeat first
    [ apply le_refl
    | assumption
    | apply le_bind; [|intros ?]
    | apply le_guard_with
    | apply le_map_err
    | apply le_if ].

Lemma le_next_element {A} term (e e' : M A) had : le_m e e' ->
  le_m (next_element term e had) (next_element term e' had).
Proof. intros H. unfold next_element, guard. le. Qed.
Lemma le_seq_loop {A} n term (e e' : M A) had : le_m e e' ->
  le_m (seq_loop n term e had) (seq_loop n term e' had).
Proof.
  intros H. revert had. induction n; intros had; cbn [seq_loop]; [apply le_refl|].
  apply le_bind; [now apply le_next_element|]. intros [[a|] c]; [|apply le_refl].
  apply le_bind; [apply IHn|]. intros. apply le_refl.
Qed.
Lemma le_seq_all {A} term (e e' : M A) : le_m e e' -> le_m (seq_all term e) (seq_all term e').
Proof. intros H. unfold seq_all. apply le_bind; [apply le_refl|]. intros r. now apply le_seq_loop. Qed.
Lemma le_tuple_elems {A} (es es' : list (M A)) i had : Forall2 le_m es es' ->
  le_m (tuple_elems es i had) (tuple_elems es' i had).
Proof.
  intros H. revert i had. induction H; intros i had; cbn [tuple_elems]; [apply le_refl|].
  apply le_bind; [now apply le_next_element|]. intros [[a|] c]; [|apply le_refl].
  apply le_bind; [apply IHForall2|]. intros. apply le_refl.
Qed.
Lemma le_next_value {A} (v v' : M A) : le_m v v' -> le_m (next_value v) (next_value v').
Proof. intros H. unfold next_value, guard. le. Qed.
Lemma le_map_loop {A B} n term (k k' : M A) (v v' : M B) had : le_m k k' -> le_m v v' ->
  le_m (map_loop n term k v had) (map_loop n term k' v' had).
Proof.
  intros H K. revert had. induction n; intros had; cbn [map_loop]; [apply le_refl|].
  apply le_bind; [unfold next_key, guard_r; le|]. intros [a|]; [|apply le_refl].
  apply le_bind; [now apply le_next_value|]. intros p.
  apply le_bind; [apply IHn|]. intros. apply le_refl.
Qed.
Lemma le_map_all {A B} term (k k' : M A) (v v' : M B) : le_m k k' -> le_m v v' ->
  le_m (map_all term k v) (map_all term k' v').
Proof. intros H K. unfold map_all. apply le_bind; [apply le_refl|]. intros r. now apply le_map_loop. Qed.
Lemma le_de_seq {A} (b b' : M A) : le_m b b' -> le_m (de_seq b) (de_seq b').
Proof. intros H. unfold de_seq, guard. le. Qed.
Lemma le_de_tuple {A} (b b' : M A) : le_m b b' -> le_m (de_tuple b) (de_tuple b').
Proof. intros H. unfold de_tuple, guard. le. Qed.
Lemma le_de_map {A} (b b' : M A) : le_m b b' -> le_m (de_map b) (de_map b').
Proof. intros H. unfold de_map, guard. le. Qed.
Lemma le_struct_after {A} name (b b' : M A) : le_m b b' ->
  le_m (struct_after_name name b) (struct_after_name name b').
Proof. intros H. unfold struct_after_name, guard. le. Qed.
Lemma le_de_option {A} none (b b' : M A) : le_m b b' -> le_m (de_option none b) (de_option none b').
Proof. intros H. unfold de_option, guard, guard_r. le. Qed.
Lemma le_de_newtype {A} name (b b' : M A) : le_m b b' -> le_m (de_newtype name b) (de_newtype name b').
Proof. intros H. unfold de_newtype, guard, guard_r. le. Qed.
Lemma le_struct_loop (v v' : ty -> M val) deny fields n acc had : (forall t, le_m (v t) (v' t)) ->
  le_m (struct_loop v deny fields n acc had) (struct_loop v' deny fields n acc had).
Proof.
  intros H. revert acc had. induction n; intros acc had; cbn [struct_loop]; [apply le_refl|].
  apply le_bind; [apply le_refl|]. intros [k|]; [|apply le_refl].
  destruct (assoc k fields) as [t|].
  - destruct (assoc k acc); [apply le_refl|]. apply le_bind; [now apply le_next_value|]. intros. apply IHn.
  - apply le_bind; [apply le_refl|]. intros. apply IHn.
Qed.
Lemma le_struct_body (v v' : ty -> M val) deny fields is_opt : (forall t, le_m (v t) (v' t)) ->
  le_m (struct_body v deny fields is_opt) (struct_body v' deny fields is_opt).
Proof.
  intros H. unfold struct_body. apply le_bind; [apply le_refl|]. intros r.
  apply le_bind; [now apply le_struct_loop|]. intros. apply le_refl.
Qed.

Section Typed.
Variable tenv : nat -> ty.

Lemma le_de_step (r r' : ty -> M val) : (forall t, le_m (r t) (r' t)) ->
  forall t, le_m (de_step tenv r t) (de_step tenv r' t).
Proof.
  intros IH t.
  assert (TS : forall ts, Forall2 le_m (map r ts) (map r' ts)).
  { intros ts. induction ts; cbn [map]; constructor; auto. }
  assert (RET : forall t (g : val -> val), le_m (v <- r t ;; ret (g v)) (v <- r' t ;; ret (g v))).
  { intros. apply le_bind; [apply IH|]. intros. apply le_refl. }
  unfold de_step.
  destruct t; try apply le_refl.
  - apply le_de_option, RET.
  - apply le_de_newtype, RET.
  - apply le_de_seq. apply le_bind; [now apply le_seq_all|]. intros. apply le_refl.
  - apply le_de_tuple. apply le_bind; [now apply le_tuple_elems|]. intros. apply le_refl.
  - apply le_bind; [apply le_refl|]. intros s. apply le_bind; [apply le_refl|]. intros _.
    apply le_map_err, le_de_tuple. apply le_bind; [now apply le_tuple_elems|]. intros. apply le_refl.
  - apply le_de_map. apply le_bind; [now apply le_map_all|]. intros. apply le_refl.
  - apply le_bind; [apply le_refl|]. intros [ns|]; [apply le_refl|].
    apply le_bind; [apply le_refl|]. intros s. apply le_bind; [apply le_refl|]. intros _.
    apply le_bind; [apply le_refl|]. intros _. apply le_struct_after.
    apply le_bind; [now apply le_struct_body|]. intros. apply le_refl.
  - apply le_bind; [apply le_refl|]. intros _. apply le_map_err, le_guard_with.
    apply le_bind; [apply le_refl|]. intros _. apply le_bind; [apply le_refl|]. intros [k w].
    destruct w as [|t|ts|d fs].
    + apply le_refl.
    + apply le_bind; [apply le_refl|]. intros s. apply le_bind; [apply le_refl|]. intros _.
      apply le_bind; [apply le_refl|]. intros []; [|apply le_refl].
      apply le_bind; [apply le_refl|]. intros _. apply le_bind; [apply le_refl|]. intros _.
      apply le_bind; [apply le_guard_with, le_map_err, IH|]. intros. apply le_refl.
    + apply le_bind; [apply le_refl|]. intros _. apply le_de_tuple.
      apply le_bind; [now apply le_tuple_elems|]. intros. apply le_refl.
    + apply le_bind; [apply le_refl|]. intros s. apply le_bind; [apply le_refl|]. intros _.
      apply le_map_err, le_struct_after. apply le_bind; [now apply le_struct_body|]. intros. apply le_refl.
  - apply IH.
Qed.
Lemma de_ty_S f : forall t, le_m (de_ty tenv f t) (de_ty tenv (S f) t).
Proof.
  induction f as [|f IH]; intros t; [intros s; now left|]. now apply le_de_step.
Qed.
Lemma de_ty_le f f' t : (f <= f')%nat -> le_m (de_ty tenv f t) (de_ty tenv f' t).
Proof.
  induction 1; [apply le_refl|]. eapply le_trans; [eassumption|apply de_ty_S].
Qed.

(** Running out of fuel replaced by an error: a completion of every [de_ty],
    used to reason about what happens as long as the fuel lasts. *)
Fixpoint de_bot (fuel : nat) (t : ty) : M val :=
  match fuel with
  | O => fail EMessage
  | S f => de_step tenv (de_bot f) t
  end.
Lemma de_ty_bot f : forall t, le_m (de_ty tenv f t) (de_bot f t).
Proof. induction f as [|f IH]; intros t; [intros s; now left|]. now apply le_de_step. Qed.
Lemma step_ok_any n b t l : step_ok tenv (fun _ _ _ _ => True) n b t l.
Proof.
  assert (TS : forall n ts l, tys (fun _ _ _ _ => True) n ts l).
  { intros. unfold tys. apply gd_all. intros. now apply gd_all. }
  destruct t; cbn [step_ok]; unfold inparens, inner; auto; try (destruct n; auto; fail).
  - split; [now apply gd_all|]. intros. now apply gd_all.
  - now apply gd_all.
  - destruct n; auto. apply gd_all. intros l' p _. destruct (snd p); auto. now apply gd_all.
Qed.
Lemma de_bot_safe {X : XidOk E} T f : forall n b t l, safe T (at_ n b l) (de_bot f t).
Proof.
  induction f as [|f IH]; intros n b t l.
  { apply safe_fail. }
  apply (de_step_safe tenv T (fun _ _ _ _ => True)); [auto|]. apply step_ok_any.
Qed.

(** ** Enough fuel *)

(** a table of named types whose entries are not mere references *)
Definition productive : Prop := forall n, match tenv n with TRef _ => False | _ => True end.

(** a budget of [l] guards keeps the nesting of types below [2 * l + 2], for
    arbitrary recursive types *)
Lemma fuel_limited : productive -> forall l f t, (2 * l + 2 <= f)%nat -> fuel_ok tenv f t (Some l).
Proof.
  intros PR l. induction l as [l IH] using lt_wf_ind. intros f t L.
  assert (NR : forall f t, match t with TRef _ => False | _ => True end ->
                (2 * l + 1 <= f)%nat -> fuel_ok tenv f t (Some l)).
  { clear f t L. intros f t NT L. destruct f as [|f]; [lia|].
    assert (G : forall t, gd (fuel_ok tenv f t) (Some l)).
    { intros t'. destruct l as [|l]; cbn; [exact I|]. apply IH; lia. }
    assert (G2 : forall ts, gd (fun l => forall t, In t ts -> gd (fuel_ok tenv f t) l) (Some l)).
    { intros ts. destruct l as [|[|l]]; cbn; auto. intros t' _. apply IH; lia. }
    destruct t; cbn [fuel_ok]; cbv zeta; auto; try contradiction.
    destruct l as [|l]; cbn; auto. intros p _. destruct (snd p); auto.
    - destruct l; cbn; auto. apply IH; lia.
    - destruct l as [|[|l]]; cbn; auto. intros t' _. apply IH; lia.
    - destruct l as [|[|l]]; cbn; auto. intros t' _. apply IH; lia. }
  destruct f as [|f]; [lia|].
  destruct t; try (apply NR; [exact I|lia]).
  cbn [fuel_ok]. apply NR; [apply PR|lia].
Qed.

(** without a budget the types must be well-founded: [rank] bounds the depth
    of each named type *)
Variable rank : nat -> nat.
Fixpoint tdepth (t : ty) : nat :=
  match t with
  | TOption t | TNewtype _ t | TSeq t => S (tdepth t)
  | TTuple ts | TTupleStruct _ ts => S (list_max (map tdepth ts))
  | TMap k v => S (max (tdepth k) (tdepth v))
  | TStruct _ _ fs => S (list_max (map (fun p => tdepth (snd p)) fs))
  | TEnum _ vs => S (list_max (map (fun p => vdepth (snd p)) vs))
  | TRef n => S (rank n)
  | _ => 1%nat
  end
with vdepth (w : vty) : nat :=
  match w with
  | WUnit => 0%nat
  | WNew t => tdepth t
  | WTup ts => list_max (map tdepth ts)
  | WStruct _ fs => list_max (map (fun p => tdepth (snd p)) fs)
  end.
Definition ranked : Prop := forall n, (tdepth (tenv n) <= rank n)%nat.

Lemma list_max_in l x : In x l -> (x <= list_max l)%nat.
Proof.
  induction l as [|y l IH]; [intros []|].
  change (list_max (y :: l)) with (Nat.max y (list_max l)).
  intros [->|H]; [lia|]. specialize (IH H). lia.
Qed.
Lemma gd_weak (P : option nat -> Prop) l : (forall l', P l') -> gd P l.
Proof. destruct l as [[]|]; cbn; auto. Qed.

Lemma fuel_ranked : ranked -> forall f t l, (tdepth t <= f)%nat -> fuel_ok tenv f t l.
Proof.
  intros RK. induction f as [|f IH]; intros t l L; [destruct t; cbn [tdepth] in L; try lia|].
  assert (TS : forall ts l, (list_max (map tdepth ts) <= f)%nat ->
     gd (fun l => forall t, In t ts -> gd (fuel_ok tenv f t) l) l).
  { intros ts l' LL. apply gd_weak. intros l2 t' H. apply gd_weak. intros l3. apply IH.
    apply (in_map tdepth) in H. apply list_max_in in H. lia. }
  assert (FS : forall fs : list (str * ty), map tdepth (map snd fs) = map (fun p => tdepth (snd p)) fs).
  { intros fs. now rewrite map_map. }
  destruct t; cbn [fuel_ok]; cbv zeta; auto; cbn [tdepth] in L.
  - apply gd_weak. intros. apply IH. lia.
  - apply gd_weak. intros. apply IH. lia.
  - apply TS. cbn. lia.
  - apply TS. lia.
  - apply TS. lia.
  - apply TS. cbn. lia.
  - apply TS. rewrite FS. lia.
  - apply gd_weak. intros l' p H.
    assert (vdepth (snd p) <= f)%nat as VD.
    { apply (in_map (fun p => vdepth (snd p))) in H. apply list_max_in in H. lia. }
    destruct (snd p) as [|t|ts|d fs]; cbn [vdepth] in VD; auto.
    + apply gd_weak. intros. apply IH. lia.
    + apply TS. rewrite FS. lia.
  - apply IH. specialize (RK n). lia.
Qed.

(** ** Recursive types without a budget

    Options, newtypes and references may be passed without consuming any
    text, so only chains of these must be well-founded. *)
Fixpoint cdepth (t : ty) : nat :=
  match t with
  | TOption t | TNewtype _ t => S (cdepth t)
  | TRef n => S (rank n)
  | _ => 1%nat
  end.
(** the longest such chain in [t] *)
Fixpoint cmax (t : ty) : nat :=
  match t with
  | TOption t | TNewtype _ t => Nat.max (S (cdepth t)) (cmax t)
  | TSeq t => cmax t
  | TTuple ts | TTupleStruct _ ts => list_max (map cmax ts)
  | TMap k v => max (cmax k) (cmax v)
  | TStruct _ _ fs => list_max (map (fun p => cmax (snd p)) fs)
  | TEnum _ vs => list_max (map (fun p => vcmax (snd p)) vs)
  | TRef n => S (rank n)
  | _ => 0%nat
  end
with vcmax (w : vty) : nat :=
  match w with
  | WUnit => 0%nat
  | WNew t => cmax t
  | WTup ts => list_max (map cmax ts)
  | WStruct _ fs => list_max (map (fun p => cmax (snd p)) fs)
  end.
Definition guarded (K : nat) : Prop :=
  forall n, (cdepth (tenv n) <= rank n)%nat /\ (cmax (tenv n) <= K)%nat.

Lemma cdepth_cmax t : (cdepth t <= S (cmax t))%nat.
Proof. destruct t; cbn [cdepth cmax]; lia. Qed.

Definition fuel_at (K f n : nat) (b : bool) (t : ty) (l : option nat) : Prop :=
  (cmax t <= K)%nat /\ ((2 * n + (if b then 1 else 0)) * S K + cdepth t <= f)%nat.

Lemma fuel_guarded K : guarded K -> forall f n b t l, fuel_at K (S f) n b t l ->
  step_ok tenv (fuel_at K f) n b t l.
Proof.
  intros GK f n b t l [C D].
  assert (TS : forall n' ts l, (n' < n)%nat \/ b = true /\ n' = n -> (list_max (map cmax ts) <= K)%nat ->
     tys (fuel_at K f) n' ts l).
  { intros n' ts l' H CC. unfold tys. apply gd_weak. intros l2 t' I. apply gd_weak. intros l3.
    apply (in_map cmax) in I. apply list_max_in in I. assert (Y := cdepth_cmax t'). assert (Z := cdepth_cmax t).
    unfold fuel_at. split; [lia|]. assert (1 <= cdepth t)%nat by (destruct t; cbn [cdepth]; lia).
    destruct H as [H|[-> ->]]; [destruct b|]; nia. }
  assert (NW : forall n' t' l, (n' < n)%nat -> (cmax t' <= K)%nat -> fuel_at K f n' true t' l).
  { intros n' t' l' H CC. assert (Y := cdepth_cmax t'). assert (1 <= cdepth t)%nat by (destruct t; cbn [cdepth]; lia).
    unfold fuel_at. split; [lia|]. destruct b; nia. }
  assert (FS : forall fs : list (str * ty), map cmax (map snd fs) = map (fun p => cmax (snd p)) fs).
  { intros fs. now rewrite map_map. }
  destruct t; cbn [step_ok]; unfold inparens, inner; auto; cbn [cmax] in C; cbn [cdepth] in D.
  - split; [|intros n' L]; apply gd_weak; intros l'.
    + unfold fuel_at. split; lia.
    + apply NW; lia.
  - apply gd_weak. intros l'. unfold fuel_at. split; [lia|]. destruct b; nia.
  - destruct n; auto. apply TS; [lia|]. cbn [map list_max fold_right]. lia.
  - split; [intros ->; apply TS; auto|]. destruct n; auto.
  - split; [intros ->; apply TS; auto|]. destruct n; auto.
  - destruct n; auto. apply TS; [lia|]. cbn. lia.
  - split; [intros ->; apply TS; auto; now rewrite FS|]. destruct n; auto. apply TS; [lia|now rewrite FS].
  - destruct n as [|n]; auto. apply gd_weak. intros l' p H.
    assert (vcmax (snd p) <= K)%nat as VD.
    { apply (in_map (fun p => vcmax (snd p))) in H. apply list_max_in in H. lia. }
    destruct (snd p) as [|t|ts|d fs]; cbn [vcmax] in VD; auto.
    + apply gd_weak. intros l2. apply NW; [lia|exact VD].
    + apply TS; [lia|now rewrite FS].
  - destruct (GK n0) as [G1 G2]. unfold fuel_at. split; lia.
Qed.
Lemma de_guarded_safe {X : XidOk E} T K : guarded K -> forall f n b t l, fuel_at K f n b t l ->
  safe T (at_ n b l) (de_ty tenv f t).
Proof.
  intros GK. induction f as [|f IH]; intros n b t l F.
  { destruct F as [_ F]. destruct t; cbn [cdepth] in F; lia. }
  apply (de_step_safe tenv T (fuel_at K f)); [auto|]. now apply fuel_guarded.
Qed.

End Typed.
End WithEnv.
