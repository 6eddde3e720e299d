(** Converting a Value (C33). *)
From Coq Require Import String Ascii NArith ZArith Lia Bool List.
From Verif Require Import Base Value Data Parse De IntoRust Facts Accept Made DeSafe Sound TypedRead Toy.
Import ListNotations.
Open Scope N_scope.
Open Scope list_scope.

Lemma cbind_val {A B} (m : conv A) (k : A -> conv B) b : cbind m k = CVal b -> exists a, m = CVal a /\ k a = CVal b.
Proof. destruct m; cbn; intros H; try discriminate H. eauto. Qed.
Ltac cv := repeat match goal with
  | H : cbind _ _ = CVal _ |- _ => apply cbind_val in H as (? & ? & H)
  end.

Lemma all_elems_sound {A} (f : value -> conv A) l : forall vs, all_elems f l = CVal vs -> Forall2 (fun x v => f x = CVal v) l vs.
Proof.
  induction l as [|x l IH]; cbn; intros vs H.
  - injection H as <-. constructor.
  - cv. injection H as <-. constructor; auto.
Qed.
Lemma take_elems_sound fs : forall i l vs r, take_elems fs i l = CVal (vs, r) ->
  exists l', l = l' ++ r /\ length fs = length l' /\ Forall2 (fun p v => (fst p) (snd p) = CVal v) (combine fs l') vs.
Proof.
  induction fs as [|f fs IH]; cbn; intros i l vs r H.
  - injection H as <- <-. exists []. repeat split. constructor.
  - destruct l as [|x l]; [discriminate H|]. cv. destruct x1 as [vs' r']. injection H as <- <-.
    apply IH in H1 as (l' & -> & L & F). exists (x :: l'). cbn. repeat split; [congruence|]. constructor; assumption.
Qed.
Lemma all_entries_sound {A B} (f : value -> conv A) (g : value -> conv B) es : forall vs, all_entries f g es = CVal vs ->
  Forall2 (fun kx kv => f (fst kx) = CVal (fst kv) /\ g (snd kx) = CVal (snd kv)) es vs.
Proof.
  induction es as [|[k x] es IH]; cbn; intros vs H.
  - injection H as <-. constructor.
  - cv. injection H as <-. constructor; auto.
Qed.

Definition enough (P : nat -> Prop) : Prop := exists n, forall f, (n <= f)%nat -> P f.
Lemma enough_mono (P Q : nat -> Prop) : (forall f, P f -> Q f) -> enough P -> enough Q.
Proof. intros H [n N]. exists n. auto. Qed.
Lemma enough_and P Q : enough P -> enough Q -> enough (fun f => P f /\ Q f).
Proof. intros [n N] [m M]. exists (Nat.max n m). intros f L. split; [apply N|apply M]; lia. Qed.
Lemma enough_S (P : nat -> Prop) : enough (fun f => P (Datatypes.S f)) -> enough P.
Proof. intros [n N]. exists (Datatypes.S n). intros [|f] L; [lia|]. apply N. lia. Qed.
Lemma enough_all (P : nat -> Prop) : (forall f, P f) -> enough P.
Proof. exists O. auto. Qed.
Lemma enough_Forall2 {A B} (R : nat -> A -> B -> Prop) l l' : Forall2 (fun a b => enough (fun f => R f a b)) l l' -> enough (fun f => Forall2 (R f) l l').
Proof.
  induction 1; [now apply enough_all|]. eapply enough_mono; [|exact (enough_and _ _ H IHForall2)]. cbn. intros f [X Y]. now constructor.
Qed.

Lemma find_assoc {A} s (l : list (str * A)) f t : find (fun ft => str_eqb s (fst ft)) l = Some (f, t) -> f = s /\ assoc s l = Some t.
Proof.
  induction l as [|[k a] l IH]; cbn; [discriminate|]. destruct (str_eqb s k) eqn:Q; intros H.
  - injection H as <- <-. apply str_eqb_eq in Q. auto.
  - auto.
Qed.
Lemma find_assoc_none {A} s (l : list (str * A)) : find (fun ft => str_eqb s (fst ft)) l = None -> assoc s l = None.
Proof. induction l as [|[k a] l IH]; cbn; [auto|]. destruct (str_eqb s k); [discriminate|auto]. Qed.
Lemma assoc_find {A} s (l : list (str * A)) t : assoc s l = Some t -> find (fun ft => str_eqb s (fst ft)) l = Some (s, t).
Proof.
  induction l as [|[k a] l IH]; cbn; [discriminate|]. destruct (str_eqb s k) eqn:Q; intros H; [|auto].
  injection H as ->. apply str_eqb_eq in Q. now subst.
Qed.
Lemma assoc_find_none {A} s (l : list (str * A)) : assoc s l = None -> find (fun ft => str_eqb s (fst ft)) l = None.
Proof. induction l as [|[k a] l IH]; cbn; [auto|]. destruct (str_eqb s k); [discriminate|auto]. Qed.

Section Sound.
Context {E : Env}.
Variable tenv : nat -> ty.

Lemma field_of_known deny fields k f t : field_of deny fields k = CVal (Some (f, t)) -> key_names fields k f t.
Proof.
  unfold field_of. destruct k as [b|c|m|n| |x|s|b|l|]; try discriminate.
  - destruct (find _ _) as [[f' t']|] eqn:Q; [|destruct deny; discriminate]. intros H. injection H as <- <-.
    apply find_assoc in Q as [-> Q]. now constructor.
  - destruct n as [k z|k b]; [|discriminate]. destruct k; try discriminate.
    all: destruct (nth_error _ _) as [[f' t']|] eqn:Q; [|destruct deny; discriminate]; intros H; injection H as <- <-.
    all: constructor; [cbn; tauto|exact Q].
  - destruct (find _ _) as [[f' t']|] eqn:Q; [|destruct deny; discriminate]. intros H. injection H as <- <-.
    apply find_assoc in Q as [-> Q]. now constructor.
  - destruct (find _ _) as [[f' t']|] eqn:Q; [|destruct deny; discriminate]. intros H. injection H as <- <-.
    pose proof (find_some _ _ Q) as [_ X]. cbn in X. apply str_eqb_eq in X. subst b. now constructor.
Qed.
Lemma field_of_unknown deny fields k : field_of deny fields k = CVal None -> key_unknown fields k /\ deny = false.
Proof.
  unfold field_of. destruct k as [b|c|m|n| |x|s|b|l|]; try discriminate.
  - destruct (find _ _) as [[f' t']|] eqn:Q; [discriminate|]. destruct deny; [discriminate|]. intros _.
    apply find_assoc_none in Q. split; [now constructor|reflexivity].
  - destruct n as [k z|k b]; [|discriminate]. destruct k; try discriminate.
    all: destruct (nth_error _ _) as [[f' t']|] eqn:Q; [discriminate|]; destruct deny; [discriminate|]; intros _.
    all: split; [|reflexivity]; constructor; [cbn; tauto|exact Q].
  - destruct (find _ _) as [[f' t']|] eqn:Q; [discriminate|]. destruct deny; [discriminate|]. intros _.
    apply find_assoc_none in Q. split; [now constructor|reflexivity].
  - destruct (find _ _) as [[f' t']|] eqn:Q; [discriminate|]. destruct deny; [discriminate|]. intros _.
    split; [|reflexivity]. constructor. rewrite in_map_iff. intros ([f t] & <- & I).
    apply (find_none _ _ Q) in I. cbn in I. now rewrite str_eqb_refl in I.
Qed.
Lemma field_of_names deny fields k f t : key_names fields k f t -> field_of deny fields k = CVal (Some (f, t)).
Proof.
  destruct 1 as [s t H|c t H|f t H|k z f t K H]; cbv beta iota zeta delta [field_of].
  - now rewrite (assoc_find _ _ _ H).
  - now rewrite (assoc_find _ _ _ H).
  - now rewrite H.
  - cbn in K. destruct K as [<-|[<-|[<-|[<-|[]]]]]; now rewrite H.
Qed.
Lemma field_of_none fields k : key_unknown fields k -> field_of false fields k = CVal None.
Proof.
  destruct 1 as [s H|c H|b H|k z K H]; cbv beta iota zeta delta [field_of].
  - now rewrite (assoc_find_none _ _ H).
  - now rewrite (assoc_find_none _ _ H).
  - destruct (find _ _) as [[f t]|] eqn:Q; [|reflexivity]. apply find_some in Q as [I Q]. cbn in Q. apply str_eqb_eq in Q.
    destruct H. apply in_map_iff. exists (f, t). auto.
  - cbn in K. destruct K as [<-|[<-|[<-|[<-|[]]]]]; now rewrite H.
Qed.

Lemma entries_sound rec deny fields es : forall acc acc', struct_entries rec deny fields acc es = CVal acc' ->
  NoDup (map fst acc) ->
  exists ents, Forall2 (made_entry (fun t x v => rec t x = CVal v) deny fields) es ents /\
    acc' = rev (given ents) ++ acc /\ NoDup (map fst acc').
Proof.
  induction es as [|[k x] es IH]; cbn [struct_entries]; intros acc acc' H D.
  - injection H as <-. exists []. repeat split; [constructor|assumption].
  - cv. destruct x0 as [[f t]|].
    + destruct (assoc f acc) eqn:A; [discriminate H|]. cv. apply Sound.assoc_none in A.
      apply IH in H as (ents & F & -> & N); [|cbn; constructor; assumption].
      exists ((f, Some x0) :: ents). split; [|split; [|exact N]].
      * constructor; [|exact F]. apply me_known with (t := t); [|assumption]. now apply field_of_known in H0.
      * cbn. now rewrite <- app_assoc.
    + apply IH in H as (ents & F & -> & N); [|assumption]. exists (([], None) :: ents). split; [|split; [|exact N]].
      * constructor; [|exact F]. apply field_of_unknown in H0 as [? ?]. now constructor.
      * reflexivity.
Qed.
Lemma fill_sound fields : forall acc fs, fill tenv fields acc = CVal fs ->
  map fst fs = map fst fields /\
  Forall2 (fun ft fv => In fv acc \/ (is_option tenv (snd ft) = true /\ snd fv = VNone /\ ~ In (fst fv) (map fst acc))) fields fs.
Proof.
  induction fields as [|[f t] fields IH]; cbn [fill]; intros acc fs H.
  - injection H as <-. split; [reflexivity|constructor].
  - cv. injection H as <-. apply IH in H1 as [M F]. split; [cbn; congruence|]. constructor; [|exact F]. cbn.
    destruct (assoc f acc) eqn:A.
    + injection H0 as <-. left. now apply DeSafe.assoc_in in A.
    + destruct (is_option tenv t); [|discriminate]. injection H0 as <-. right. repeat split. now apply Sound.assoc_none in A.
Qed.
Lemma Forall2_imp {A B} (P Q : A -> B -> Prop) l l' : (forall a b, P a b -> Q a b) -> Forall2 P l l' -> Forall2 Q l l'.
Proof. intros H. induction 1; constructor; auto. Defined.
Lemma Forall2_map {A B C} (P : B -> C -> Prop) (g : A -> B) l l' : Forall2 (fun a => P (g a)) l l' -> Forall2 P (map g l) l'.
Proof. induction 1; constructor; auto. Qed.
Lemma struct_sound rec deny fields es acc fs : struct_entries rec deny fields [] es = CVal acc -> fill tenv fields acc = CVal fs ->
  exists ents, Forall2 (made_entry (fun t x v => rec t x = CVal v) deny fields) es ents /\ struct_of (is_option tenv) fields ents fs.
Proof.
  intros A B. apply entries_sound in A as (ents & F & -> & N); [|constructor]. rewrite app_nil_r in *.
  apply fill_sound in B as [M G]. exists ents. split; [exact F|].
  rewrite map_rev in N. split; [|split].
  - apply NoDup_rev in N. now rewrite rev_involutive in N.
  - exact M.
  - eapply Forall2_imp; [|exact G]. intros ft fv. rewrite map_rev, <- !in_rev. auto.
Qed.

Lemma combine_map_l {A B C} (g : A -> B) (l : list A) : forall (l' : list C), combine (map g l) l' = map (fun p => (g (fst p), snd p)) (combine l l').
Proof. induction l as [|a l IH]; intros [|c l']; cbn; congruence. Qed.
Lemma Forall2_map_l {A B C} (P : B -> C -> Prop) (g : A -> B) l : forall l', Forall2 P (map g l) l' -> Forall2 (fun a => P (g a)) l l'.
Proof. induction l as [|a l IH]; intros l' H; inversion H; subst; constructor; auto. Qed.

Lemma into_byte_sound x b : into_byte x = CVal b ->
  exists k, is_128 k = false /\ x = XNum (NInt k (Z.of_N b)) /\ b < 256.
Proof.
  unfold into_byte. destruct x; try discriminate. destruct n as [k z|k b']; cbn; [|discriminate].
  destruct (is_128 k) eqn:K; [discriminate|]. cbn [negb orb]. destruct (in_range U8 z) eqn:R; [|discriminate]. intros H. injection H as <-.
  assert (0 <= z <= 255)%Z by (unfold in_range in R; cbn in R; lia).
  exists k. rewrite Z2N.id by lia. repeat split; [assumption|]. lia.
Qed.

(** The result of a conversion is made of the whole value. *)
Theorem C33_made f : forall t x v, into_rust tenv f t x = CVal v -> made tenv t x v.
Proof.
  induction f as [|f IH]; [discriminate|]. intros t x v H.
  assert (S : (forall n, t <> TRef n) -> (forall k, t = TInt k -> int_supported k = true) -> into_step tenv (into_rust tenv f) t x = CVal v -> made tenv t x v).
  2:{ destruct t; try (apply S; [discriminate|discriminate|exact H]).
      - cbn in H. destruct (int_supported k) eqn:K; [|discriminate]. apply S; [discriminate| |exact H]. intros ? X. now injection X as <-.
      - constructor. now apply IH. }
  clear H. intros NR NI H. destruct x as [b|c|m|n| |x|s|b|l|]; cbn [into_step] in H.
  - destruct t; try discriminate H; cbn in H; injection H as <-; constructor.
  - destruct t; try discriminate H; cbn in H.
    all: try (injection H as <-; constructor).
    destruct (from_str _ _ _) eqn:Q in H; try discriminate H. injection H as <-. constructor. eauto.
  - cv. destruct x as [v' r]. cbn [fst snd] in H. destruct r; [|discriminate H]. injection H as <-.
    destruct t; try discriminate H0; cbn [visit_map] in H0.
    + cv. injection H0 as <-. apply all_entries_sound in H. constructor. eapply Forall2_imp; [|exact H].
      intros [k x'] [k' v']. cbn. intros [A B]. split; now apply IH.
    + cv. injection H0 as <-. destruct (struct_sound _ _ _ _ _ _ H H1) as (ents & F & S). eapply md_struct; [|exact S].
      eapply Forall2_imp; [|exact F]. intros kx fv [k x' f' t' v' K R|k x' K D]; econstructor; eauto.
    + injection H0 as <-. constructor.
    + injection H0 as <-. constructor.
  - cbn [visit_scalar] in H. destruct (num_into n t) eqn:Q; [|discriminate H]. injection H as <-.
    destruct t; destruct n as [k' z|k' b]; try discriminate Q; cbn in Q.
    all: try (injection Q as <-; constructor).
    + destruct ((negb (is_128 k') || is_128 k) && in_range k z) eqn:R; [|discriminate]. injection Q as <-.
      apply andb_true_iff in R as [R1 R2]. constructor; [now apply NI|exact R2|]. intros X. rewrite X in R1. exact R1.
    + destruct (is_128 k') eqn:R; [discriminate|]. injection Q as <-. now constructor.
  - destruct t; try discriminate H; cbn in H; injection H as <-; constructor.
  - destruct t; try discriminate H; cbn [visit_scalar] in H; try (injection H as <-; constructor).
    cv. injection H as <-. constructor. now apply IH.
  - destruct t; try discriminate H; cbn in H.
    all: try (injection H as <-; constructor).
    + destruct s as [|c [|? ?]]; try discriminate H. injection H as <-. constructor.
    + destruct (from_str _ _ _) eqn:Q in H; try discriminate H. injection H as <-. constructor. eauto.
  - destruct t; try discriminate H; cbn in H.
    all: try (injection H as <-; constructor).
    destruct (from_utf8 b) eqn:Q; [|discriminate]. injection H as <-. now constructor.
  - cv. destruct x as [v' r]. cbn [fst snd] in H. destruct r; [|discriminate H]. injection H as <-.
    destruct t; try discriminate H0; cbn [visit_seq] in H0.
    + cv. injection H0 as <-. apply all_elems_sound in H. constructor. eapply Forall2_imp; [|exact H]. apply into_byte_sound.
    + cv. destruct x as [vs r]. apply take_elems_sound in H as (l' & -> & L & F). destruct l' as [|y [|? ?]]; try discriminate L.
      cbn in F. inversion F as [|? w ? ? F1 F2]; subst. inversion F2; subst. cbn in H0. injection H0 as <- ->. constructor. now apply IH.
    + cv. injection H0 as <-. apply all_elems_sound in H. constructor. eapply Forall2_imp; [|exact H]. intros; now apply IH.
    + cv. destruct x as [vs r]. cbn in H0. injection H0 as <- ->. apply take_elems_sound in H as (l' & -> & L & F).
      rewrite app_nil_r. rewrite map_length in L. constructor; [exact L|]. rewrite combine_map_l in F.
      apply Forall2_map_l in F. eapply Forall2_imp; [|exact F]. cbn. intros; now apply IH.
    + cv. destruct x as [vs r]. cbn in H0. injection H0 as <- ->. apply take_elems_sound in H as (l' & -> & L & F).
      rewrite app_nil_r. rewrite map_length in L. constructor; [exact L|]. rewrite combine_map_l in F.
      apply Forall2_map_l in F. eapply Forall2_imp; [|exact F]. cbn. intros; now apply IH.
    + cv. destruct x as [vs r]. cbn in H0. injection H0 as <- ->. apply take_elems_sound in H as (l' & -> & L & F).
      rewrite app_nil_r. rewrite map_length in L. constructor; [exact L|]. rewrite !combine_map_l in *.
      apply Forall2_map_l in F. apply Forall2_map. eapply Forall2_imp; [|exact F]. cbn. intros; now apply IH.
    + injection H0 as <-. constructor.
    + injection H0 as <-. constructor.
  - destruct t; try discriminate H; cbn in H; injection H as <-; constructor.
Qed.

(** ** and conversely *)
Lemma all_elems_ok {A} (f : value -> conv A) l vs : Forall2 (fun x v => f x = CVal v) l vs -> all_elems f l = CVal vs.
Proof. induction 1 as [|x v l vs H F IH]; cbn; [reflexivity|]. now rewrite H, IH. Qed.
Lemma take_elems_ok fs : forall i l vs, length fs = length l -> Forall2 (fun p v => (fst p) (snd p) = CVal v) (combine fs l) vs ->
  take_elems fs i l = CVal (vs, []).
Proof.
  induction fs as [|f fs IH]; intros i [|x l] vs L F; try discriminate L; cbn in *.
  - inversion F. reflexivity.
  - inversion F as [|? v ? vs' H1 H2]; subst. cbn in H1. rewrite H1. cbn. rewrite (IH (Datatypes.S i) l vs'); [reflexivity|lia|assumption].
Qed.
Lemma all_entries_ok {A B} (f : value -> conv A) (g : value -> conv B) es vs :
  Forall2 (fun kx kv => f (fst kx) = CVal (fst kv) /\ g (snd kx) = CVal (snd kv)) es vs -> all_entries f g es = CVal vs.
Proof. induction 1 as [|[k x] [a b] l vs [H1 H2] F IH]; cbn in *; [reflexivity|]. now rewrite H1, H2, IH. Qed.
Lemma entries_ok rec deny fields es ents : Forall2 (made_entry (fun t x v => rec t x = CVal v) deny fields) es ents ->
  forall acc, NoDup (map fst (rev (given ents) ++ acc)) -> struct_entries rec deny fields acc es = CVal (rev (given ents) ++ acc).
Proof.
  induction 1 as [|kx fv es ents [k x f t v K R|k x K D] F IH]; intros acc N; cbn [struct_entries].
  - reflexivity.
  - rewrite (field_of_names _ _ _ _ _ K). cbn [cbind]. cbn [given flat_map snd fst app rev] in *. fold (given ents) in *.
    rewrite <- app_assoc in *. cbn [app] in *.
    replace (assoc f acc) with (@None val).
    + rewrite R. cbn [cbind]. now apply IH.
    + symmetry. apply TypedRead.assoc_none. rewrite map_app in N. apply NoDup_remove_2 in N. intros I. apply N. apply in_or_app. auto.
  - subst deny. rewrite (field_of_none _ _ K). cbn [cbind]. now apply IH.
Qed.
Lemma fill_ok acc fields fs : NoDup (map fst acc) -> map fst fs = map fst fields ->
  Forall2 (fun ft fv => In fv acc \/ (is_option tenv (snd ft) = true /\ snd fv = VNone /\ ~ In (fst fv) (map fst acc))) fields fs ->
  fill tenv fields acc = CVal fs.
Proof.
  intros N M F. induction F as [|[f t] [f' v] fields fs H F IH]; cbn [fill]; [reflexivity|].
  cbn in M. injection M as -> M. rewrite (IH M). cbn in H. destruct H as [H|(O & -> & H)].
  - now rewrite (TypedRead.assoc_in _ _ _ N H).
  - rewrite (TypedRead.assoc_none _ _ H), O. reflexivity.
Qed.
Lemma struct_ok rec deny fields es ents fs : Forall2 (made_entry (fun t x v => rec t x = CVal v) deny fields) es ents ->
  struct_of (is_option tenv) fields ents fs ->
  exists acc, struct_entries rec deny fields [] es = CVal acc /\ fill tenv fields acc = CVal fs.
Proof.
  intros F (N & M & G). exists (rev (given ents)). split.
  - rewrite <- (app_nil_r (rev (given ents))). apply entries_ok; [assumption|]. rewrite app_nil_r, map_rev. now apply NoDup_rev.
  - apply fill_ok; [rewrite map_rev; now apply NoDup_rev|assumption|].
    eapply Forall2_imp; [|exact G]. intros ft fv. rewrite map_rev, <- !in_rev. auto.
Qed.

(** Whatever can be made is made. *)
Theorem C33_made_converse : forall t x v, made tenv t x v -> exists n, forall f, (n <= f)%nat -> into_rust tenv f t x = CVal v.
Proof.
  change (forall t x v, made tenv t x v -> enough (fun f => into_rust tenv f t x = CVal v)).
  fix IH 4. intros t x v H. destruct H; apply enough_S; cbn [into_rust into_step visit_scalar visit_seq visit_map].
  - now apply IH.
  - now apply enough_all.
  - apply enough_all. intros _. rewrite H. cbn. rewrite H0. destruct (is_128 k'); cbn; [now rewrite H1|reflexivity].
  - apply enough_all. intros _. cbn. now rewrite H.
  - now apply enough_all.
  - now apply enough_all.
  - now apply enough_all.
  - now apply enough_all.
  - now apply enough_all.
  - apply enough_all. intros _. now rewrite H.
  - now apply enough_all.
  - now apply enough_all.
  - now apply enough_all.
  - apply enough_all. intros _. rewrite (all_elems_ok into_byte l bs); [reflexivity|]. eapply Forall2_imp; [|exact H].
    cbn. intros x b (k & K & -> & B). unfold into_byte. cbn. rewrite K. cbn.
    replace (in_range U8 (Z.of_N b)) with true; [now rewrite N2Z.id|]. symmetry. unfold in_range. cbn. lia.
  - now apply enough_all.
  - now apply enough_all.
  - now apply enough_all.
  - now apply enough_all.
  - eapply enough_mono; [|exact (IH _ _ _ H)]. cbn. intros f ->. reflexivity.
  - eapply enough_mono; [|exact (IH _ _ _ H)]. cbn. intros f ->. reflexivity.
  - assert (F := Forall2_imp _ _ _ _ (fun x v => IH t x v) H). apply enough_Forall2 in F.
    eapply enough_mono; [|exact F]. cbn beta. intros f X. now rewrite (all_elems_ok _ _ _ X).
  - assert (F := Forall2_imp _ _ _ _ (fun p v => IH (fst p) (snd p) v) H0). apply (enough_Forall2 (fun f p v => into_rust tenv f (fst p) (snd p) = CVal v)) in F.
    eapply enough_mono; [|exact F]. cbn beta. intros f X. rewrite (take_elems_ok _ O l vs); [reflexivity|now rewrite map_length|].
    rewrite combine_map_l. apply Forall2_map. exact X.
  - assert (F := Forall2_imp _ _ _ _ (fun p v => IH (fst p) (snd p) v) H0). apply (enough_Forall2 (fun f p v => into_rust tenv f (fst p) (snd p) = CVal v)) in F.
    eapply enough_mono; [|exact F]. cbn beta. intros f X. rewrite (take_elems_ok _ O l vs); [reflexivity|now rewrite map_length|].
    rewrite combine_map_l. apply Forall2_map. exact X.
  - assert (F := Forall2_imp _ _ _ _ (fun p v => IH (fst p) (snd p) v) H0). apply (enough_Forall2 (fun f p v => into_rust tenv f (fst p) (snd p) = CVal v)) in F.
    eapply enough_mono; [|exact F]. cbn beta. intros f X. rewrite (take_elems_ok _ O l vs); [reflexivity|now rewrite map_length|].
    rewrite combine_map_l. rewrite combine_map_l in X. apply Forall2_map. apply Forall2_map_l in X. exact X.
  - assert (F : Forall2 (fun kx kv => enough (fun f => into_rust tenv f kt (fst kx) = CVal (fst kv) /\ into_rust tenv f vt (snd kx) = CVal (snd kv))) es vs).
    { eapply Forall2_imp; [|exact H]. cbn beta. intros kx kv [P1 P2]. apply enough_and; apply IH; assumption. }
    pose proof (enough_Forall2 _ _ _ F) as F'. clear F. rename F' into F.
    eapply enough_mono; [|exact F]. cbn beta. intros f X. now rewrite (all_entries_ok _ _ _ _ X).
  - assert (F : Forall2 (fun kx fv => enough (fun f => made_entry (fun t x v => into_rust tenv f t x = CVal v) deny fields kx fv)) es ents).
    { eapply Forall2_imp; [|exact H]. intros kx fv P. destruct P as [k x f' t' v' K R|k x K D].
      - eapply enough_mono; [|exact (IH _ _ _ R)]. cbn. intros f X. econstructor; eassumption.
      - apply enough_all. intros f. now constructor. }
    apply enough_Forall2 in F. eapply enough_mono; [|exact F]. cbn beta. intros f X.
    destruct (struct_ok _ _ _ _ _ _ X H0) as (acc & -> & Y). cbn. rewrite Y. reflexivity.
  - apply enough_all. intros f. destruct x; try reflexivity. 
  - apply enough_all. intros f. destruct x; try reflexivity.
  - apply enough_all. intros f. destruct H as (y & s' & H). cbn [visit_str]. now rewrite H.
  - apply enough_all. intros f. destruct H as (y & s' & H). cbn [visit_str]. now rewrite H.
Qed.
End Sound.
Print Assumptions C33_made.
Print Assumptions C33_made_converse.

Section Lengths.
Context {E : Env}.
Variable tenv : nat -> ty.

(** A tuple is never made of a sequence of another length; the error tells the
    length, after the elements there are have been converted. *)
Theorem C33_tuple_length ts l f v : length l <> length ts -> into_rust tenv f (TTuple ts) (XSeq l) <> CVal v.
Proof. intros L H. apply C33_made in H. inversion H. congruence. Qed.

Lemma take_more fs : forall i l1 l2 vs, length fs = length l1 -> Forall2 (fun p v => (fst p) (snd p) = CVal v) (combine fs l1) vs ->
  take_elems fs i (l1 ++ l2) = CVal (vs, l2).
Proof.
  induction fs as [|f fs IH]; intros i [|x l] l2 vs L F; try discriminate L; cbn in *.
  - inversion F. reflexivity.
  - inversion F as [|? v ? vs' H1 H2]; subst. cbn in H1. rewrite H1. cbn. rewrite (IH (Datatypes.S i) l l2 vs'); [reflexivity|lia|assumption].
Qed.
Lemma take_less fs : forall f fs' i l vs, length fs = length l -> Forall2 (fun p v => (fst p) (snd p) = CVal v) (combine fs l) vs ->
  take_elems (fs ++ f :: fs') i l = CErr (EExpectedDifferentLength (i + length l)).
Proof.
  induction fs as [|g fs IH]; intros f fs' i [|x l] vs L F; try discriminate L; cbn in *.
  - now rewrite Nat.add_0_r.
  - inversion F as [|? v ? vs' H1 H2]; subst. cbn in H1. rewrite H1. cbn. rewrite (IH f fs' (Datatypes.S i) l vs'); [cbn; f_equal; f_equal; lia|lia|assumption].
Qed.
Lemma made_prefix ts l vs : Forall2 (fun p v => made tenv (fst p) (snd p) v) (combine ts l) vs ->
  enough (fun f => Forall2 (fun p v => (fst p) (snd p) = CVal v) (combine (map (into_rust tenv f) ts) l) vs).
Proof.
  intros F. assert (G : Forall2 (fun p v => enough (fun f => into_rust tenv f (fst p) (snd p) = CVal v)) (combine ts l) vs).
  { eapply Forall2_imp; [|exact F]. intros p v H. exact (C33_made_converse tenv (fst p) (snd p) v H). }
  pose proof (enough_Forall2 _ _ _ G) as G'. eapply enough_mono; [|exact G']. cbn beta. intros f H. rewrite combine_map_l. apply Forall2_map. exact H.
Qed.

Theorem C33_tuple_longer ts l1 y l2 vs : length ts = length l1 -> Forall2 (fun p v => made tenv (fst p) (snd p) v) (combine ts l1) vs ->
  exists n, forall f, (n <= f)%nat ->
    into_rust tenv f (TTuple ts) (XSeq (l1 ++ y :: l2)) = CErr (EExpectedDifferentLength (length (l1 ++ y :: l2))).
Proof.
  intros L F. apply enough_S. eapply enough_mono; [|exact (made_prefix _ _ _ F)]. intros f H.
  cbn [into_rust into_step visit_seq]. rewrite (take_more _ O l1 (y :: l2) vs); [|now rewrite map_length|exact H]. reflexivity.
Qed.
Theorem C33_tuple_shorter ts t ts' l vs : length ts = length l -> Forall2 (fun p v => made tenv (fst p) (snd p) v) (combine ts l) vs ->
  exists n, forall f, (n <= f)%nat ->
    into_rust tenv f (TTuple (ts ++ t :: ts')) (XSeq l) = CErr (EExpectedDifferentLength (length l)).
Proof.
  intros L F. apply enough_S. eapply enough_mono; [|exact (made_prefix _ _ _ F)]. intros f H.
  cbn [into_rust into_step visit_seq]. rewrite map_app. cbn [map].
  rewrite (take_less _ _ _ O l vs); [reflexivity|now rewrite map_length|exact H].
Qed.
(** With deny_unknown_fields no entry is dropped at all. *)
Theorem C33_denied name fields es f v : into_rust tenv f (TStruct true name fields) (XMap es) = CVal v ->
  exists fs, v = VStruct name fs /\
    Forall (fun kx => exists g w, In (g, w) fs /\ exists t, key_names fields (fst kx) g t /\ made tenv t (snd kx) w) es.
Proof.
  intros H. apply C33_made in H. inversion H as [| | | | | | | | | | | | | | | | | | | | | | | | |d nm' fl es' ents fs F S Q1 Q2 Q3| | | |]; subst.
  exists fs. split; [reflexivity|]. destruct S as (N & M & G). rewrite Forall_forall. intros kx I.
  apply In_nth_error in I as [i I].
  assert (X : exists fv, nth_error ents i = Some fv /\ made_entry (made tenv) true fields kx fv).
  { clear - F I. revert i I. induction F; intros [|i] I; try discriminate I; cbn in *; eauto. injection I as ->. eauto. }
  destruct X as ((g, w) & W & X). inversion X as [k x g' t w' K R|]; subst; [|discriminate].
  exists g, w'. split; [|eauto].
  assert (GI : In (g, w') (given ents)).
  { unfold given. apply in_flat_map. exists (g, Some w'). split; [eapply nth_error_In; eassumption|now left]. }
  assert (FI : In g (map fst fields)).
  { destruct K as [s t A|c t A|g t A|k z g t _ A].
    - apply DeSafe.assoc_in in A. now apply (in_map fst) in A.
    - apply DeSafe.assoc_in in A. now apply (in_map fst) in A.
    - apply find_some in A as [A _]. now apply (in_map fst) in A.
    - apply nth_error_In in A. now apply (in_map fst) in A. }
  rewrite <- M in FI. clear - FI GI G N. induction G as [|ft [g' v'] fields fs H G IH]; [destruct FI|].
  cbn in FI. destruct FI as [->|FI]; [|right; auto]. left. f_equal. cbn in H. destruct H as [H|(_ & _ & H)].
  - clear - N GI H. induction (given ents) as [|[a b] r IH]; [destruct GI|]. cbn in N. inversion N as [|? ? N1 N2]; subst.
    destruct GI as [GI|GI], H as [H|H].
    + congruence.
    + injection GI as -> ->. destruct N1. now apply (in_map fst) in H.
    + injection H as -> ->. destruct N1. now apply (in_map fst) in GI.
    + auto.
  - destruct H. now apply (in_map fst) in GI.
Qed.
End Lengths.
Print Assumptions C33_tuple_length.
Print Assumptions C33_tuple_longer.
Print Assumptions C33_tuple_shorter.
Print Assumptions C33_denied.

(** ** Visitors of all kinds *)
Section Visitors.
Context {E : Env}.
Variable rec : ty -> value -> conv val.
Variable St : Type.

Section Seq.
Variable step : St -> seq_act St.
(** from [s] the visitor takes all of [l] and returns [v] *)
Inductive takes_all : St -> list value -> val -> Prop :=
  | ta_return s v : step s = QReturn v -> takes_all s [] v
  | ta_next s t k x a l v : step s = QNext t k -> rec t x = CVal a -> takes_all (k (Some a)) l v -> takes_all s (x :: l) v
  | ta_end s t k v : step s = QNext t k -> takes_all (k None) [] v -> takes_all s [] v.
(** the visitor returns a value before the end of [l] *)
Inductive stops_early : St -> list value -> Prop :=
  | se_return s v x l : step s = QReturn v -> stops_early s (x :: l)
  | se_next s t k x a l : step s = QNext t k -> rec t x = CVal a -> stops_early (k (Some a)) l -> stops_early s (x :: l).

Theorem C33_seq_visitor f s l v : into_seq rec St f step s l = CVal v -> takes_all s l v.
Proof.
  unfold into_seq. intros H. cv. destruct x as [v' r]. cbn in H. destruct r; [|discriminate]. injection H as ->.
  revert s l H0. induction f as [|f IH]; [discriminate|]. intros s l H. cbn in H. destruct (step s) as [v'|e|t k] eqn:Q; [|discriminate|].
  - injection H as -> ->. now constructor.
  - destruct l as [|x l].
    + eapply ta_end; eauto.
    + cv. eapply ta_next; eauto.
Qed.
Theorem C33_seq_early s l : stops_early s l -> exists n, forall f, (n <= f)%nat ->
  into_seq rec St f step s l = CErr (EExpectedDifferentLength (length l)).
Proof.
  intros H. assert (R : enough (fun f => exists v x r, run_seq rec St f step s l = CVal (v, x :: r))).
  { induction H as [s v x l Q|s t k x a l Q R H IH]; apply enough_S.
    - apply enough_all. intros f. cbn. rewrite Q. eauto.
    - eapply enough_mono; [|exact IH]. cbn. intros f (v & y & r & H1). rewrite Q, R. cbn. eauto. }
  destruct R as [n N]. exists n. intros f L. destruct (N f L) as (v & x & r & H1). unfold into_seq. now rewrite H1.
Qed.
End Seq.

Section Map.
Variable step : St -> map_act St.
(** from [s], with [held] waiting, the visitor takes all keys of [es] and
    returns [v]; [whole]: it takes each value as well *)
Inductive takes_keys (whole : bool) : St -> option value -> list (value * value) -> val -> Prop :=
  | tk_return s h v : step s = PReturn v -> (whole = true -> h = None) -> takes_keys whole s h [] v
  | tk_key s h t k y x a es v : step s = PKey t k -> (whole = true -> h = None) -> rec t y = CVal a ->
      takes_keys whole (k (Some a)) (Some x) es v -> takes_keys whole s h ((y, x) :: es) v
  | tk_end s h t k v : step s = PKey t k -> takes_keys whole (k None) h [] v -> takes_keys whole s h [] v
  | tk_value s x t k a es v : step s = PValue t k -> rec t x = CVal a -> takes_keys whole (k a) None es v -> takes_keys whole s (Some x) es v.
(** the visitor returns a value before the last key *)
Inductive leaves_keys : St -> option value -> list (value * value) -> Prop :=
  | lk_return s h v y x es : step s = PReturn v -> leaves_keys s h ((y, x) :: es)
  | lk_key s h t k y x a es : step s = PKey t k -> rec t y = CVal a -> leaves_keys (k (Some a)) (Some x) es -> leaves_keys s h ((y, x) :: es)
  | lk_value s x t k a es : step s = PValue t k -> rec t x = CVal a -> leaves_keys (k a) None es -> leaves_keys s (Some x) es.

(** The full claim is [takes_keys true]; see [C33_values_refuted]. *)
Theorem C33_map_visitor_partial f s es v : into_map rec St f step s es = Ran (CVal v) -> takes_keys false s None es v.
Proof.
  unfold into_map. destruct (run_map _ _ _ _ _ _ _) as [m|] eqn:R; [|discriminate]. intros H. injection H as H. cv.
  destruct x as [v' r]. cbn in H. destruct r; [|discriminate]. injection H as ->. subst m.
  remember (@None value) as h. clear Heqh. revert s h es R.
  induction f as [|f IH]; [discriminate|]. intros s h es H. cbn in H. destruct (step s) as [v'|e|t k|t k] eqn:Q; [|discriminate| |].
  - injection H as -> ->. now constructor.
  - destruct es as [|[y x] es].
    + eapply tk_end; eauto.
    + destruct (rec t y) eqn:R; try discriminate H. eapply tk_key; eauto. discriminate.
  - destruct h as [x|]; [|discriminate]. destruct (rec t x) eqn:R; try discriminate H. eapply tk_value; eauto.
Qed.
Theorem C33_map_early s es : leaves_keys s None es -> exists n, forall f, (n <= f)%nat ->
  into_map rec St f step s es = Ran (CErr (EExpectedDifferentLength (length es))).
Proof.
  intros H. assert (R : enough (fun f => exists v x r, run_map rec St f step s None es = Ran (CVal (v, x :: r)))).
  { induction H as [s h v y x es Q|s h t k y x a es Q R H IH|s x t k a es Q R H IH]; apply enough_S.
    - apply enough_all. intros f. cbn. rewrite Q. eauto.
    - eapply enough_mono; [|exact IH]. cbn. intros f (v & z & r & H1). rewrite Q, R. eauto.
    - eapply enough_mono; [|exact IH]. cbn. intros f (v & z & r & H1). rewrite Q, R. eauto. }
  destruct R as [n N]. exists n. intros f L. destruct (N f L) as (v & x & r & H1). unfold into_map. now rewrite H1.
Qed.
End Map.
End Visitors.
Print Assumptions C33_seq_visitor.
Print Assumptions C33_seq_early.
Print Assumptions C33_map_visitor_partial.
Print Assumptions C33_map_early.

(** A visitor that takes all keys, but leaves a value, is not stopped: only the
    entries whose key has not been asked for are counted. *)
Theorem C33_values_refuted `{E : Env} tenv : exists St (step : St -> map_act St) s es v f,
  into_map (into_rust tenv f) St f step s es = Ran (CVal v) /\ ~ takes_keys (into_rust tenv f) St step true s None es v.
Proof.
  exists bool, (fun s : bool => if s then PReturn VUnit else PKey TStr (fun _ => true)), false, [(XStr [97], XNum (NInt U8 5%Z))], VUnit, 3%nat.
  split; [reflexivity|]. intros H. inversion H as [ | s h t k y x a es v Q _ R T| |]; subst. injection Q as <- <-.
  inversion T as [s h v Q W|s h t k y x es v Q W R'|s h t k v Q|s x t k a' es v Q]; subst; try discriminate Q. now discriminate W.
Qed.
Print Assumptions C33_values_refuted.

Section Examples.
#[local] Existing Instance Toy.
Let te : nat -> ty := fun _ => TUnit.
Let num z := XNum (NInt U8 z).
(** (1, 2) as a tuple; as a struct; {"b": 2, "a": 1} as a struct *)
Example C33_made_ex : made te (TTuple [TInt I32; TFloat F64]) (XSeq [num 1; num 2]) (VTuple [VInt I32 1; VFloat F64 (f_of_int F64 2)]).
Proof. apply (C33_made te 3). reflexivity. Qed.
Example C33_made_struct_ex : exists ft, made te (TStruct true [80] [([97], TInt I32); ([98], TInt U8)])
    (XMap [(XStr [98], num 2); (XStr [97], num 1)]) (VStruct [80] [([97], VInt I32 1); ([98], VInt U8 ft)]) /\ ft = 2%Z.
Proof. exists 2%Z. split; [|reflexivity]. apply (C33_made te 3). reflexivity. Qed.
Example C33_tuple_length_ex : into_rust te 3 (TTuple [TInt U8]) (XSeq [num 1; num 2]) = CErr (EExpectedDifferentLength 2)
  /\ into_rust te 3 (TTuple [TInt U8; TInt U8; TInt U8]) (XSeq [num 1; num 2]) = CErr (EExpectedDifferentLength 2).
Proof. split; reflexivity. Qed.
Example C33_tuple_longer_ex : length [TInt U8] = length [num 1]
  /\ Forall2 (fun p v => made te (fst p) (snd p) v) (combine [TInt U8] [num 1]) [VInt U8 1].
Proof. split; [reflexivity|]. constructor; [|constructor]. apply (C33_made te 2). reflexivity. Qed.
Example C33_denied_ex : into_rust te 3 (TStruct true [80] [([97], TInt U8)]) (XMap [(XStr [97], num 1)]) = CVal (VStruct [80] [([97], VInt U8 1)])
  /\ into_rust te 3 (TStruct true [80] [([97], TInt U8)]) (XMap [(XStr [97], num 1); (XStr [98], num 1)]) = CErr (ENoSuchStructField [98] None)
  /\ into_rust te 3 (TStruct false [80] [([97], TInt U8)]) (XMap [(XStr [97], num 1); (XStr [98], num 1)]) = CVal (VStruct [80] [([97], VInt U8 1)]).
Proof. repeat split; reflexivity. Qed.
(** a visitor that takes one element *)
Let one (s : option val) : seq_act (option val) :=
  match s with None => QNext (TInt U8) (fun o => match o with Some v => Some v | None => Some VNone end) | Some v => QReturn v end.
Example C33_seq_visitor_ex : into_seq (into_rust te 2) _ 3 one None [num 7] = CVal (VInt U8 7).
Proof. reflexivity. Qed.
Example C33_seq_early_ex : stops_early (into_rust te 2) _ one None [num 7; num 8].
Proof. eapply se_next; [reflexivity|reflexivity|]. eapply se_return. reflexivity. Qed.
(** a visitor that takes one entry *)
Let entry (s : option (option val)) : map_act (option (option val)) :=
  match s with
  | None => PKey TStr (fun _ => Some None)
  | Some None => PValue (TInt U8) (fun v => Some (Some v))
  | Some (Some v) => PReturn v
  end.
Example C33_map_visitor_ex : into_map (into_rust te 2) _ 4 entry None [(XStr [97], num 7)] = Ran (CVal (VInt U8 7)).
Proof. reflexivity. Qed.
Example C33_map_early_ex : leaves_keys (into_rust te 2) _ entry None None [(XStr [97], num 7); (XStr [98], num 8)].
Proof. eapply lk_key; [reflexivity|reflexivity|]. eapply lk_value; [reflexivity|reflexivity|]. eapply lk_return. reflexivity. Qed.
End Examples.
