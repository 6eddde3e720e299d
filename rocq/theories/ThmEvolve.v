(** C61: what an earlier version of a program could read, a later version can
    still read. *)
From Coq Require Import String Ascii NArith ZArith Lia Bool List.
From Verif Require Import Base Facts Value Data Parse De Span Ser EnvOk Repr RangeSpec SerLex SerWp SerRepr Evolve Toy ThmTyped.
From Verif Require DeSafe TypedRead Sound Limit.
Import ListNotations.
Open Scope N_scope.
Open Scope list_scope.
Open Scope m_scope.

Section Proofs.
Context {E : Env}.

(** ** Two readers running side by side *)
Definition sv {A B} (R : A -> B -> Prop) (m : M A) (m' : M B) : Prop := forall s,
  match m s with Ok a s' => exists b, m' s = Ok b s' /\ R a b | _ => True end.
Lemma sv_same {A} (m : M A) : sv eq m m.
Proof. intros s. destruct (m s); eauto. Qed.
Lemma sv_imp {A B} (R R' : A -> B -> Prop) m m' : (forall a b, R a b -> R' a b) -> sv R m m' -> sv R' m m'.
Proof. intros H K s. specialize (K s). destruct (m s); auto. destruct K as (b & -> & K). eauto. Qed.
Lemma sv_ret {A B} (R : A -> B -> Prop) a b : R a b -> sv R (ret a) (ret b).
Proof. intros H s. cbn. eauto. Qed.
Lemma sv_fail {A B} (R : A -> B -> Prop) e m : sv R (fail e) m.
Proof. intros s. exact Logic.I. Qed.
Lemma sv_oof {A B} (R : A -> B -> Prop) m : sv R oof m.
Proof. intros s. exact Logic.I. Qed.
Lemma sv_bind {A A' B B'} (R : A -> A' -> Prop) (Q : B -> B' -> Prop) m m' k k' :
  sv R m m' -> (forall a a', R a a' -> sv Q (k a) (k' a')) -> sv Q (bind m k) (bind m' k').
Proof.
  intros H K s. specialize (H s). unfold bind. destruct (m s) as [a s'|e s'| |]; auto. destruct H as (a' & -> & H). apply (K _ _ H).
Qed.
Lemma sv_step {A B B'} (Q : B -> B' -> Prop) (m : M A) k k' : (forall a, sv Q (k a) (k' a)) -> sv Q (bind m k) (bind m k').
Proof. intros K. apply (sv_bind eq); [apply sv_same|intros a _ <-; apply K]. Qed.
Lemma sv_map_err {A B} (R : A -> B -> Prop) f g m m' : sv R m m' -> sv R (map_err f m) (map_err g m').
Proof. intros H s. specialize (H s). unfold map_err, try. destruct (m s); cbn; auto. destruct H as (b & -> & H). eauto. Qed.
Lemma sv_guard {A B} (R : A -> B -> Prop) r m m' : sv R m m' -> sv R (guard_with r m) (guard_with r m').
Proof.
  intros H s. unfold guard_with. destruct (lim s) as [[|l]|]; auto; [|apply H].
  specialize (H (set_lim (Some l) s)). destruct (m _); auto. destruct H as (b & -> & H). eauto.
Qed.
Create HintDb sv.
Ltac ev1 :=
  match goal with
  | |- sv _ (ret _) (ret _) => apply sv_ret
  | |- sv _ (fail _) _ => apply sv_fail
  | |- sv _ oof _ => apply sv_oof
  | |- sv eq ?m ?m => apply sv_same
  | |- sv _ (map_err _ _) (map_err _ _) => apply sv_map_err
  | |- sv _ (guard _) (guard _) => apply sv_guard
  | |- sv _ (guard_r _) (guard_r _) => apply sv_guard
  | |- sv _ (bind ?m _) (bind ?m _) => apply sv_step; intros ?
  | |- _ => solve [eauto with sv]
  | |- sv _ (match ?x with _ => _ end) (match ?x with _ => _ end) => destruct x
  | |- sv _ (bind ?m _) (bind ?m' _) => eapply sv_bind; [|intros ? ? ?]
  end.
Ltac ev := cbv zeta; repeat ev1.

Inductive both {A B} (R : A -> B -> Prop) : option A * bool -> option B * bool -> Prop :=
  | both_none c : both R (None, c) (None, c)
  | both_some a b c : R a b -> both R (Some a, c) (Some b, c).
Inductive opt {A B} (R : A -> B -> Prop) : option A -> option B -> Prop :=
  | opt_none : opt R None None
  | opt_some a b : R a b -> opt R (Some a) (Some b).
Inductive pair_c {A B} (R : A -> B -> Prop) : A * bool -> B * bool -> Prop :=
  | pair_ c a b : R a b -> pair_c R (a, c) (b, c).
#[local] Hint Constructors both opt pair_c : sv.
Lemma sv_element {A B} (R : A -> B -> Prop) t m m' h : sv R m m' -> sv (both R) (next_element t m h) (next_element t m' h).
Proof. intros H. unfold next_element. ev. Qed.
Lemma sv_seq_loop {A B} (R : A -> B -> Prop) t m m' n : sv R m m' -> forall h, sv (Forall2 R) (seq_loop n t m h) (seq_loop n t m' h).
Proof.
  intros H. induction n as [|n IH]; intros h; cbn [seq_loop]; [ev|]. eapply sv_bind; [apply sv_element; exact H|]. intros ? ? [c|a b c K]; [apply sv_ret; constructor|].
  eapply sv_bind; [apply IH|]. intros l l' L. apply sv_ret. now constructor.
Qed.
Lemma sv_seq_all {A B} (R : A -> B -> Prop) t m m' : sv R m m' -> sv (Forall2 R) (seq_all t m) (seq_all t m').
Proof. intros H. unfold seq_all. apply sv_step. intros r. now apply sv_seq_loop. Qed.
Lemma sv_tuple {A B} (R : A -> B -> Prop) l l' : Forall2 (sv R) l l' -> forall i h, sv (Forall2 R) (tuple_elems l i h) (tuple_elems l' i h).
Proof.
  intros H. induction H as [|m m' l l' H HL IH]; intros i h; cbn [tuple_elems]; [apply sv_ret; constructor|].
  eapply sv_bind; [apply sv_element; exact H|]. intros ? ? [c|a b c K]; [ev|].
  eapply sv_bind; [apply IH|]. intros r r' L. apply sv_ret. now constructor.
Qed.
Lemma sv_key {A B} (R : A -> B -> Prop) t m m' h : sv R m m' -> sv (opt R) (next_key t m h) (next_key t m' h).
Proof. intros H. unfold next_key. ev. Qed.
Lemma sv_value {A B} (R : A -> B -> Prop) m m' : sv R m m' -> sv (pair_c R) (next_value m) (next_value m').
Proof. intros H. unfold next_value. ev. Qed.
Inductive ent {A B A' B'} (R : A -> A' -> Prop) (Q : B -> B' -> Prop) : A * B -> A' * B' -> Prop :=
  | ent_ a a' b b' : R a a' -> Q b b' -> ent R Q (a, b) (a', b').
Lemma sv_map_loop {A B A' B'} (R : A -> A' -> Prop) (Q : B -> B' -> Prop) t k k' v v' n : sv R k k' -> sv Q v v' ->
  forall h, sv (Forall2 (ent R Q)) (map_loop n t k v h) (map_loop n t k' v' h).
Proof.
  intros H V. induction n as [|n IH]; intros h; cbn [map_loop]; [ev|]. eapply sv_bind; [apply sv_key; exact H|]. intros ? ? [|a b K]; [apply sv_ret; constructor|].
  eapply sv_bind; [apply sv_value; exact V|]. intros ? ? [c x y X]. cbn [fst snd]. eapply sv_bind; [apply IH|]. intros l l' L. apply sv_ret. constructor; [|assumption]. now constructor.
Qed.
Lemma sv_map_all {A B A' B'} (R : A -> A' -> Prop) (Q : B -> B' -> Prop) t k k' v v' : sv R k k' -> sv Q v v' ->
  sv (Forall2 (ent R Q)) (map_all t k v) (map_all t k' v').
Proof. intros H V. unfold map_all. apply sv_step. intros r. now apply sv_map_loop. Qed.
Lemma sv_de_seq {A B} (R : A -> B -> Prop) m m' : sv R m m' -> sv R (de_seq m) (de_seq m').
Proof. intros H. unfold de_seq. ev. Qed.
Lemma sv_de_tuple {A B} (R : A -> B -> Prop) m m' : sv R m m' -> sv R (de_tuple m) (de_tuple m').
Proof. intros H. unfold de_tuple. ev. Qed.
Lemma sv_de_map {A B} (R : A -> B -> Prop) m m' : sv R m m' -> sv R (de_map m) (de_map m').
Proof. intros H. unfold de_map. ev. Qed.
Lemma sv_struct {A B} (R : A -> B -> Prop) n m m' : sv R m m' -> sv R (struct_after_name n m) (struct_after_name n m').
Proof. intros H. unfold struct_after_name. ev. Qed.
Lemma sv_option {A B} (R : A -> B -> Prop) a b m m' : R a b -> sv R m m' -> sv R (de_option a m) (de_option b m').
Proof. intros X H. unfold de_option. ev. Qed.
Lemma sv_newtype {A B} (R : A -> B -> Prop) n m m' : sv R m m' -> sv R (de_newtype n m) (de_newtype n m').
Proof. intros H. unfold de_newtype. ev. Qed.

(** ** Structs *)
Lemma assoc_or {A} k (l : list (str * A)) : {a | assoc k l = Some a} + {assoc k l = None}.
Proof. destruct (assoc k l); eauto. Qed.
Lemma prologue_none n l s : ~ In n range_names -> range_prologue n l s = Ok None s.
Proof.
  intros H. assert (K : forall x, In x range_names -> str_eqb n x = false).
  { intros x X. destruct (str_eqb n x) eqn:Q; auto. apply str_eqb_eq in Q. subst. contradiction. }
  unfold range_prologue.
  rewrite (K s_Range), (K s_RangeInclusive), (K s_RangeFrom), (K s_RangeTo), (K s_RangeToInclusive) by (cbn; tauto).
  rewrite !andb_false_r. cbn [andb orb]. reflexivity.
Qed.

Section Versions.
Variables tenv tenv' : nat -> ty.
Hypothesis named : forall n, evolves tenv' (tenv n) (tenv' n).
Lemma option_kept t t' : evolves tenv' t t' -> is_option tenv t = true -> is_option tenv' t' = true.
Proof.
  intros H. unfold is_option. inversion H; subst; try destruct t'; cbn [resolve leaf] in *; try discriminate; auto; try contradiction.
  specialize (named n). destruct (tenv n); try discriminate. inversion named; subst; [contradiction|]. reflexivity.
Qed.
Lemma optional_is t : optional tenv' t -> is_option tenv' t = true.
Proof. intros (u & [->|(n & -> & Q)]); unfold is_option; cbn [resolve]; [|rewrite Q]; reflexivity. Qed.

Lemma collect_ok o fs acc s l s' : collect o fs acc s = Ok l s' -> s' = s /\ map fst l = map fst fs /\
  (forall k t, In (k, t) fs -> assoc k acc = None -> o t = true) /\
  forall k, In k (map fst fs) -> In (k, match assoc k acc with Some v => v | None => VNone end) l.
Proof.
  revert s l s'. induction fs as [|[f t] fs IH]; intros s l s'; cbn [collect].
  - intros H. injection H as <- <-. repeat split; intros; contradiction.
  - unfold bind. set (first := match assoc f acc with Some v => ret v | None => if o t then ret VNone else fail (EMissingStructField f None) end).
    assert (F : forall a s1, first s = Ok a s1 -> s1 = s /\ (assoc f acc = None -> o t = true) /\ a = match assoc f acc with Some v => v | None => VNone end).
    { subst first. intros a s1. destruct (assoc f acc); [|destruct (o t)]; intros Q; try discriminate Q; injection Q as <- <-; repeat split; congruence. }
    destruct (first s) as [a s1|e s1| |] eqn:Q; try discriminate. destruct (F _ _ eq_refl) as (-> & F1 & ->).
    destruct (collect o fs acc s) as [l1 s2|e s2| |] eqn:C; try discriminate. intros H. injection H as <- <-. destruct (IH _ _ _ C) as (-> & I1 & I2 & I3).
    split; [reflexivity|]. split; [cbn; now rewrite I1|]. split.
    + intros k u [Z|Z]; [injection Z as <- <-; exact F1|eauto].
    + intros k [<-|K]; cbn; [left; reflexivity|right; auto].
Qed.
Lemma collect_runs o fs acc s : (forall k t, In (k, t) fs -> assoc k acc = None -> o t = true) -> exists l, collect o fs acc s = Ok l s.
Proof.
  induction fs as [|[f t] fs IH]; intros H; cbn [collect]; [eexists; reflexivity|]. destruct IH as (l & IH); [intros; eapply H; [right|]; eauto|].
  unfold bind. pose proof (H f t (or_introl eq_refl)) as F. destruct (assoc f acc); [|rewrite F by reflexivity]; cbn [ret]; rewrite IH; eexists; reflexivity.
Qed.

Definition accs (fs : list (str * ty)) (acc acc' : list (str * val)) : Prop :=
  (forall k, opt grown (assoc k acc) (assoc k acc')) /\ forall k, ~ In k (map fst fs) -> assoc k acc = None.

Section Body.
Variables deny deny' : bool.
Variables fs fs' : list (str * ty).
Hypothesis F : efields tenv' deny deny' fs fs'.
Variables rec rec' : ty -> M val.
Hypothesis RR : forall t t', evolves tenv' t t' -> sv grown (rec t) (rec' t').

Lemma keep k t : assoc k fs = Some t -> exists t', assoc k fs' = Some t' /\ evolves tenv' t t'.
Proof.
  inversion F as [? ? ? ? N1 N2 D K X]; subst. intros Q. apply DeSafe.assoc_in in Q. destruct (K _ _ Q) as (t' & J & V).
  exists t'. split; [|exact V]. now apply TypedRead.assoc_in.
Qed.
Lemma unknown k : deny = false -> assoc k fs = None -> assoc k fs' = None.
Proof.
  inversion F as [? ? ? ? N1 N2 D K X]; subst. intros -> Q. apply Sound.assoc_none in Q. destruct (assoc_or k fs') as [[t' J]|]; [|assumption].
  apply DeSafe.assoc_in in J. destruct (X _ _ J Q) as [Z _]. discriminate.
Qed.
Lemma deny_kept : deny' = true -> deny = true.
Proof. inversion F; auto. Qed.
Lemma key_kept : sv eq (field_key deny fs) (field_key deny' fs').
Proof.
  unfold field_key. apply sv_step. intros k. destruct (assoc_or k fs) as [[t Q]|Q]; rewrite Q.
  - destruct (keep _ _ Q) as (t' & -> & _). apply sv_ret. reflexivity.
  - pose proof (unknown k) as U. pose proof deny_kept as D. destruct deny; [ev|]. rewrite (U eq_refl Q). destruct deny'; [specialize (D eq_refl); discriminate|]. apply sv_ret. reflexivity.
Qed.
(** an unknown key is only let through by a version with no new fields *)
Definition let_through (k : str) : Prop := assoc k fs = None -> assoc k fs' = None.
Lemma key_through : sv (fun k k' => k = k' /\ let_through k) (field_key deny fs) (field_key deny' fs').
Proof.
  intros s. pose proof (key_kept s) as H. destruct (field_key deny fs s) as [k s'|e s'| |] eqn:Q; auto. destruct H as (k' & -> & ->). exists k'. split; [reflexivity|].
  split; [reflexivity|]. intros Z. pose proof (unknown k') as U. destruct deny; [clear U|now apply U].
  unfold field_key, bind in Q. destruct (de_identifier s) as [x s1|x s1| |]; try discriminate. destruct (assoc x fs) eqn:A; [|discriminate]. injection Q as <- <-. congruence.
Qed.
Lemma loop_kept n : forall acc acc' h, accs fs acc acc' -> sv (accs fs) (struct_loop rec deny fs n acc h) (struct_loop rec' deny' fs' n acc' h).
Proof.
  induction n as [|n IH]; intros acc acc' h A; cbn [struct_loop]; [ev|].
  eapply sv_bind; [apply sv_key, key_through|]. intros ? ? [|k k' [<- T]]; [ev; exact A|].
  destruct (assoc_or k fs) as [[t Q]|Q]; rewrite Q.
  - destruct (keep _ _ Q) as (t' & -> & V). destruct A as [A A2]. pose proof (A k) as Ak. inversion Ak as [Z1 Z2|v v' G Z1 Z2]; [|ev].
    eapply sv_bind; [apply sv_value, RR, V|]. intros ? ? [c x y X]. cbn [fst snd]. apply IH. split.
    + intros j. cbn [assoc]. destruct (str_eqb j k); [now constructor|apply A].
    + intros j J. cbn [assoc]. destruct (str_eqb j k) eqn:W; [|now apply A2]. apply str_eqb_eq in W. subst. apply DeSafe.assoc_in in Q. exfalso. apply J. now apply (in_map fst) in Q.
  - rewrite (T Q). apply sv_step. intros p. now apply IH.
Qed.
Lemma body_kept : sv gfields (struct_body rec deny fs (is_option tenv)) (struct_body rec' deny' fs' (is_option tenv')).
Proof.
  unfold struct_body. apply sv_step. intros r. eapply sv_bind; [apply loop_kept|].
  { split; [constructor|reflexivity]. }
  intros acc acc' [A A2] s. destruct (collect (is_option tenv) fs acc s) as [l s'|e s'| |] eqn:C; auto. destruct (collect_ok _ _ _ _ _ _ C) as (-> & C1 & C2 & C3).
  inversion F as [? ? ? ? N1 N2 D K X]; subst.
  destruct (collect_runs (is_option tenv') fs' acc' s) as (l' & C').
  { intros k t' J Z. pose proof (A k) as Ak. rewrite Z in Ak. inversion Ak as [Z1 Z2|]; clear Ak. destruct (assoc_or k fs) as [[t Q]|Q].
    - destruct (keep _ _ Q) as (t2 & Q2 & V). apply TypedRead.assoc_in in J; [|exact N2]. replace t2 with t' in V by congruence. apply DeSafe.assoc_in in Q. eapply option_kept; [exact V|eauto].
    - apply Sound.assoc_none in Q. destruct (X _ _ J Q) as [_ O]. now apply optional_is. }
  exists l'. split; [exact C'|]. destruct (collect_ok _ _ _ _ _ _ C') as (_ & D1 & _ & D3).
  assert (one : forall j w, In (j, w) l' -> w = match assoc j acc' with Some v => v | None => VNone end).
  { intros j w J. assert (In j (map fst fs')) as J2 by (rewrite <- D1; now apply (in_map fst) in J). specialize (D3 _ J2). rewrite <- D1 in N2.
    apply TypedRead.assoc_in in J; [|exact N2]. apply TypedRead.assoc_in in D3; [|exact N2]. congruence. }
  assert (one0 : forall j w, In (j, w) l -> w = match assoc j acc with Some v => v | None => VNone end).
  { intros j w J. assert (In j (map fst fs)) as J2 by (rewrite <- C1; now apply (in_map fst) in J). specialize (C3 _ J2). rewrite <- C1 in N1.
    apply TypedRead.assoc_in in J; [|exact N1]. apply TypedRead.assoc_in in C3; [|exact N1]. congruence. }
  constructor; [congruence|congruence| |].
  - intros k v J. assert (In k (map fst fs)) as J2 by (rewrite <- C1; now apply (in_map fst) in J). rewrite (one0 _ _ J).
    apply in_map_iff in J2. destruct J2 as ([k0 t] & <- & J2). cbn [fst] in *. destruct (K _ _ J2) as (t' & J3 & _).
    eexists. split; [apply D3; now apply (in_map fst) in J3|]. destruct (A k0); [constructor|assumption].
  - intros k v' J Z. rewrite (one _ _ J). pose proof (A k) as Ak. rewrite C1 in Z. rewrite (A2 _ Z) in Ak. now inversion Ak.
Qed.
End Body.

Lemma leaf_kept rec rec' t : leaf t -> sv grown (de_step tenv rec t) (de_step tenv' rec' t).
Proof.
  intros L. replace (de_step tenv' rec' t) with (de_step tenv rec t) by (destruct t; try contradiction; reflexivity).
  eapply sv_imp; [|apply sv_same]. intros a _ <-. constructor.
Qed.
Lemma tuple_kept rec rec' ts ts' (RR : forall t t', evolves tenv' t t' -> sv grown (rec t) (rec' t')) : Forall2 (evolves tenv') ts ts' ->
  sv (Forall2 grown) (tuple_elems (map rec ts) 0 true) (tuple_elems (map rec' ts') 0 true).
Proof. intros H. apply sv_tuple. induction H; cbn [map]; constructor; auto. Qed.
Lemma leaf_fields deny fs : Forall leaf (map snd fs) -> NoDup (map fst fs) -> efields tenv' deny deny fs fs.
Proof.
  intros L N. constructor; auto.
  - intros k t J. exists t. split; [exact J|]. apply ev_leaf. rewrite Forall_forall in L. apply L. now apply (in_map snd) in J.
  - intros k t J H. exfalso. apply H. now apply (in_map fst) in J.
Qed.
Lemma leaf_resolve fs : Forall leaf (map snd fs) ->
  map (fun p : str * ty => (fst p, resolve tenv (snd p))) fs = map (fun p => (fst p, resolve tenv' (snd p))) fs.
Proof. intros L. apply map_ext_in. intros [k t] J. cbn [fst snd]. rewrite Forall_forall in L. apply (in_map snd) in J. specialize (L _ J). cbn in L. destruct t; cbn in *; contradiction || reflexivity. Qed.
Lemma entries l l' : Forall2 (ent grown grown) l l' -> Forall2 gentry l l'.
Proof. intros H. induction H as [|? ? ? ? [] ]; constructor; auto. now constructor. Qed.

Lemma step_kept rec rec' : (forall t t', evolves tenv' t t' -> sv grown (rec t) (rec' t')) ->
  forall t t', evolves tenv' t t' -> sv grown (de_step tenv rec t) (de_step tenv' rec' t').
Proof.
  intros RR t t' H. inversion H as [u L|n|u u' V|n u u' V|u u' V|ts ts' V|n ts ts' V|k k' v v' V V'|deny n fs L N|deny deny' n fs fs' R F|n vs vs' N V]; subst.
  - now apply leaf_kept.
  - cbn [de_step]. apply RR, named.
  - cbn [de_step]. apply sv_option; [constructor|]. eapply sv_bind; [apply RR, V|]. intros a b G. apply sv_ret. now constructor.
  - cbn [de_step]. apply sv_newtype. eapply sv_bind; [apply RR, V|]. intros a b G. apply sv_ret. now constructor.
  - cbn [de_step]. apply sv_de_seq. eapply sv_bind; [apply sv_seq_all, RR, V|]. intros a b G. apply sv_ret. now constructor.
  - cbn [de_step]. apply sv_de_tuple. eapply sv_bind; [apply tuple_kept; [exact RR|exact V]|]. intros a b G. apply sv_ret. now constructor.
  - cbn [de_step]. apply sv_step. intros s. apply sv_step. intros _. apply sv_map_err, sv_de_tuple. eapply sv_bind; [apply tuple_kept; [exact RR|exact V]|]. intros a b G. apply sv_ret. now constructor.
  - cbn [de_step]. apply sv_de_map. eapply sv_bind; [apply sv_map_all; apply RR; eassumption|]. intros a b G. apply sv_ret. constructor. now apply entries.
  - cbn [de_step]. apply sv_step. intros r. rewrite (leaf_resolve fs L). destruct r as [ns|].
    + destruct (range_fields _ ns); ev. constructor.
    + apply sv_step. intros s. do 2 (apply sv_step; intros _). apply sv_struct. eapply sv_bind; [apply body_kept; [now apply leaf_fields|exact RR]|]. intros a b G. apply sv_ret. now constructor.
  - cbn [de_step]. intros s0. unfold bind at 1. rewrite prologue_none by exact R. set (m := bind get _). set (m' := bind (range_prologue _ _) _).
    assert (Q : m' s0 = (s <- get ;; (if nt s then ret false else consume_struct_name n) ;;; skip_ws ;;;
      struct_after_name n (l <- struct_body rec' deny' fs' (is_option tenv') ;; ret (VStruct n l))) s0) by (subst m'; unfold bind at 1; rewrite prologue_none by exact R; reflexivity).
    rewrite Q. subst m. clear m' Q. revert s0. fold (sv grown). apply sv_step. intros s. do 2 (apply sv_step; intros _). apply sv_struct.
    eapply sv_bind; [apply body_kept; [exact F|exact RR]|]. intros a b G. apply sv_ret. now constructor.
  - cbn [de_step]. apply sv_step. intros _. apply sv_map_err, sv_guard. apply sv_step. intros _.
    apply (sv_bind (fun p p' : str * vty => fst p = fst p' /\ vevolves tenv' (snd p) (snd p'))).
    { apply sv_guard. apply sv_step. intros k. destruct (assoc_or k vs) as [[w Q]|Q]; rewrite Q; [|ev]. apply DeSafe.assoc_in in Q. destruct (V _ _ Q) as (w' & J & W).
      rewrite (TypedRead.assoc_in _ _ _ N J). apply sv_ret. split; [reflexivity|exact W]. }
    intros [k w] [k' w'] [Q W]. cbn [fst snd] in *. subst k'. inversion W as [|u u' X|ts ts' X|deny deny' fs fs' F]; subst.
    + apply sv_ret. constructor.
    + apply sv_step. intros s. apply sv_step. intros _. apply sv_step. intros []; [|ev]. do 2 (apply sv_step; intros _).
      eapply sv_bind; [apply sv_guard, sv_map_err, RR, X|]. intros a b G. do 2 (apply sv_step; intros _). apply sv_step. intros []; [apply sv_ret; now constructor|ev].
    + apply sv_step. intros _. apply sv_de_tuple. eapply sv_bind; [apply tuple_kept; [exact RR|exact X]|]. intros a b G. apply sv_ret. now constructor.
    + apply sv_step. intros s. apply sv_step. intros _. apply sv_map_err, sv_struct. eapply sv_bind; [apply body_kept; [exact F|exact RR]|]. intros a b G. apply sv_ret. now constructor.
Qed.
Lemma ty_kept f : forall t t', evolves tenv' t t' -> sv grown (de_ty tenv f t) (de_ty tenv' f t').
Proof. induction f as [|f IH]; intros t t' H; cbn [de_ty]; [ev|]. now apply step_kept. Qed.
End Versions.
End Proofs.

Section Theorems.
Context {E : Env}.
(** what an earlier version reads, a later one reads as well, with nothing
    but None added *)
Theorem C61_read tenv tenv' o f T T' text v : (forall n, evolves tenv' (tenv n) (tenv' n)) -> evolves tenv' T T' ->
  options_from_str o (de_ty tenv f T) text = RValue v ->
  exists v', grown v v' /\ options_from_str o (de_ty tenv' f T') text = RValue v'.
Proof.
  intros N H. pose proof (ty_kept tenv tenv' N f T T' H) as K. unfold options_from_str, spanned. rewrite !Limit.from_str_eq.
  destruct (parser_new (init_state text)) as [u s|x s| |]; [|destruct (span_error text s); discriminate|discriminate|discriminate]. set (s0 := set_lim _ _). specialize (K s0). unfold bind at 1.
  destruct (de_ty tenv f T s0) as [a s1|e s1| |]; [|destruct (span_error text s1); discriminate|discriminate|discriminate].
  destruct K as (b & K & G). unfold bind at 2. rewrite K. unfold bind, ret.
  destruct (de_end s1) as [w s2|e s2| |]; [|destruct (span_error text s2); discriminate|discriminate|discriminate].
  intros Q. injection Q as <-. eauto.
Qed.
(** so the later version reads what the earlier one has saved *)
Theorem C61_saved {X : XidOk E} {FO : FloatOk E} tenv tenv' o cfg T T' v text : (forall n, evolves tenv' (tenv n) (tenv' n)) -> evolves tenv' T T' ->
  valid_config cfg -> ranges_ok (extensions o cfg) cfg false v -> TypedRead.room (need v) (o_limit o) ->
  typed tenv float_val T v -> clash (extensions o cfg) v = false -> to_string o cfg v = inl text ->
  exists n, forall f, (n <= f)%nat -> exists v', grown v v' /\ options_from_str o (de_ty tenv' f T') text = RValue v'.
Proof.
  intros N H VC RO RM HT CL TS. destruct (round_trip_limit tenv o cfg T v text VC RO RM HT CL TS) as (n & K).
  exists n. intros f LF. eapply C61_read; eauto.
Qed.
End Theorems.
Print Assumptions C61_read.
Print Assumptions C61_saved.

(** ** Examples *)
#[local] Existing Instance Toy.
Definition old_env (n : nat) : ty := TStruct true (lit "P") [(lit "x", TInt U8); (lit "y", TOption TBool)].
Definition new_env (n : nat) : ty := TStruct false (lit "P") [(lit "y", TOption TBool); (lit "z", TOption TChar); (lit "x", TInt U8)].
Definition old_ty : ty := TSeq (TEnum (lit "E") [(lit "A", WUnit); (lit "B", WNew (TRef 0)); (lit "C", WStruct true [(lit "p", TStr)])]).
Definition new_ty : ty := TSeq (TEnum (lit "E") [(lit "D", WTup [TBool]); (lit "C", WStruct true [(lit "q", TOption TStr); (lit "p", TStr)]); (lit "B", WNew (TRef 0)); (lit "A", WUnit)]).
Definition old_val : val := VSeq [VUnitVariant (lit "E") (lit "A");
  VNewVariant (lit "E") (lit "B") (VStruct (lit "P") [(lit "x", VInt U8 1); (lit "y", VNone)]);
  VStructVariant (lit "E") (lit "C") [(lit "p", VStr (lit "s"))]].
Definition new_val : val := VSeq [VUnitVariant (lit "E") (lit "A");
  VNewVariant (lit "E") (lit "B") (VStruct (lit "P") [(lit "y", VNone); (lit "z", VNone); (lit "x", VInt U8 1)]);
  VStructVariant (lit "E") (lit "C") [(lit "q", VNone); (lit "p", VStr (lit "s"))]].
Ltac nodup := cbn; repeat constructor; cbn; intuition discriminate.
Lemma old_new_env n : evolves new_env (old_env n) (new_env n).
Proof.
  apply ev_struct; [cbn; intuition discriminate|]. constructor; [nodup|nodup|reflexivity| |].
  - intros k t [Q|[Q|[]]]; injection Q as <- <-; eexists; (split; [cbn; eauto|]); [apply ev_leaf; exact Logic.I|]. apply ev_option, ev_leaf. exact Logic.I.
  - intros k t [Q|[Q|[Q|[]]]]; injection Q as <- <-; intros H; [exfalso; apply H; cbn; auto| |exfalso; apply H; cbn; auto]. split; [reflexivity|]. exists TChar. now left.
Qed.
Lemma old_new : evolves new_env old_ty new_ty.
Proof.
  apply ev_seq, ev_enum; [nodup|]. intros k w [Q|[Q|[Q|[]]]]; injection Q as <- <-; eexists; (split; [cbn; eauto|]).
  - constructor.
  - constructor. apply ev_ref.
  - constructor. constructor; [nodup|nodup|reflexivity| |].
    + intros k t [Q|[]]; injection Q as <- <-; eexists; (split; [cbn; eauto|]); apply ev_leaf; exact Logic.I.
    + intros k t [Q|[Q|[]]]; injection Q as <- <-; intros H; [|exfalso; apply H; cbn; auto]. split; [reflexivity|]. exists TStr. now left.
Qed.
Example C61_ex : (forall n, evolves new_env (old_env n) (new_env n)) /\ evolves new_env old_ty new_ty /\
  to_string opts_default None old_val = inl (lit "[A,B((x:1,y:None)),C(p:""s"")]") /\
  options_from_str opts_default (de_ty old_env 6 old_ty) (lit "[A,B((x:1,y:None)),C(p:""s"")]") = RValue old_val /\
  options_from_str opts_default (de_ty new_env 6 new_ty) (lit "[A,B((x:1,y:None)),C(p:""s"")]") = RValue new_val.
Proof. split; [exact old_new_env|]. split; [exact old_new|]. split; [vm_compute; reflexivity|]. split; vm_compute; reflexivity. Qed.
(** an earlier version which ignored unknown fields may have ignored a field
    which the later version reads *)
Theorem C61_ignored_refuted : exists T T' text v e p,
  T = TStruct false (lit "P") [(lit "x", TInt U8)] /\ T' = TStruct false (lit "P") [(lit "x", TInt U8); (lit "z", TOption TChar)] /\
  options_from_str opts_default (de_ty no_refs 4 T) text = RValue v /\ options_from_str opts_default (de_ty no_refs 4 T') text = RError e p.
Proof. eexists _, _, (lit "(x:1,z:2)"). eexists _, _, _. split; [reflexivity|]. split; [reflexivity|]. split; vm_compute; reflexivity. Qed.
(** a field cannot become optional: its value must then be in Some *)
Theorem C61_optional_refuted : exists T text v e p,
  options_from_str opts_default (de_ty no_refs 4 T) text = RValue v /\ options_from_str opts_default (de_ty no_refs 4 (TOption T)) text = RError e p.
Proof. exists TBool, (lit "true"). eexists _, _, _. split; vm_compute; reflexivity. Qed.
(** an integer type cannot be widened: number suffixes name the earlier type *)
Theorem C61_widened_refuted : exists text v e p,
  options_from_str opts_default (de_ty no_refs 4 (TInt U8)) text = RValue v /\ options_from_str opts_default (de_ty no_refs 4 (TInt U16)) text = RError e p.
Proof. exists (lit "1u8"). eexists _, _, _. split; vm_compute; reflexivity. Qed.
(** a type cannot become a newtype around it *)
Theorem C61_wrapped_refuted : exists T text v e p,
  options_from_str opts_default (de_ty no_refs 4 T) text = RValue v /\ options_from_str opts_default (de_ty no_refs 4 (TNewtype (lit "N") T)) text = RError e p.
Proof. exists TBool, (lit "true"). eexists _, _, _. split; vm_compute; reflexivity. Qed.
Print Assumptions C61_ignored_refuted.
Print Assumptions C61_optional_refuted.
Print Assumptions C61_widened_refuted.
Print Assumptions C61_wrapped_refuted.
