(** Converting serde's buffer ends, at types that are not recursive (C17). *)
From Coq Require Import NArith ZArith Bool List Lia.
From Verif Require Import Base Facts Value Data Parse De IntoRust Content Tagged Fuel.
Import ListNotations.
Open Scope N_scope.
Open Scope list_scope.
Open Scope cv_scope.

Lemma bind_ends {A B} (m : conv A) (k : A -> conv B) : m <> CFuel -> (forall a, k a <> CFuel) -> cbind m k <> CFuel.
Proof. destruct m; cbn; auto. discriminate. Qed.
Lemma all_elems_ends {A} (f : value -> conv A) l : (forall x, f x <> CFuel) -> all_elems f l <> CFuel.
Proof.
  intros H. induction l as [|x l IH]; [discriminate|]. cbn [all_elems]. apply bind_ends; [apply H|]. intros v. apply bind_ends; [exact IH|discriminate].
Qed.
Lemma all_entries_ends {A B} (f : value -> conv A) (g : value -> conv B) l : (forall x, f x <> CFuel) -> (forall x, g x <> CFuel) -> all_entries f g l <> CFuel.
Proof.
  intros H1 H2. induction l as [|[k x] l IH]; [discriminate|]. cbn [all_entries]. apply bind_ends; [apply H1|]. intros a. apply bind_ends; [apply H2|].
  intros b. apply bind_ends; [exact IH|discriminate].
Qed.
Lemma take_elems_ends (fs : list (value -> conv val)) : (forall f x, In f fs -> f x <> CFuel) -> forall i l, take_elems fs i l <> CFuel.
Proof.
  induction fs as [|f fs IH]; intros H i l; [discriminate|]. cbn [take_elems]. destruct l as [|x l]; [discriminate|].
  apply bind_ends; [apply H; now left|]. intros v. apply bind_ends; [|discriminate]. apply IH. intros; apply H; now right.
Qed.

Section WithEnv.
Context {E : Env}.
Variable tenv : nat -> ty.
Lemma exact_ends fs l : (forall f x, In f fs -> f x <> CFuel) -> exact_elems fs l <> CFuel.
Proof. intros H. unfold exact_elems. apply bind_ends; [now apply take_elems_ends|]. intros p. destruct (is_nil _); discriminate. Qed.
Lemma field_of_ends deny fields k : field_of deny fields k <> CFuel.
Proof.
  unfold field_of. destruct k as [b|c|m|n| |x|s|b|l|]; try discriminate.
  2:{ destruct n as [k z|]; [|discriminate]. destruct k; try discriminate; destruct (nth_error _ _); destruct deny; discriminate. }
  all: destruct (find _ _); destruct deny; discriminate.
Qed.
Lemma field_of_in deny fields k f t : field_of deny fields k = CVal (Some (f, t)) -> In (f, t) fields.
Proof.
  unfold field_of. destruct k as [b|c|m|n| |x|s|b|l|]; try discriminate.
  2:{ destruct n as [k z|]; [|discriminate]. destruct k; try discriminate; destruct (nth_error _ _) eqn:Q; destruct deny; try discriminate;
      intros H; injection H as ->; now apply nth_error_In in Q. }
  all: destruct (find _ _) as [p|] eqn:Q; destruct deny; try discriminate; intros H; injection H as ->; now apply find_some in Q.
Qed.
Lemma entries_end rec deny fields es : (forall f t x, In (f, t) fields -> rec t x <> CFuel) -> forall acc, struct_entries rec deny fields acc es <> CFuel.
Proof.
  intros H. induction es as [|[k x] es IH]; intros acc; [discriminate|]. cbn [struct_entries].
  destruct (field_of deny fields k) as [[[f t]|]|er|] eqn:Q; cbn [cbind]; [|apply IH|discriminate|now apply field_of_ends in Q].
  destruct (assoc f acc); [discriminate|]. apply field_of_in in Q. apply bind_ends; [now apply (H f)|]. intros v. apply IH.
Qed.
Lemma fill_ends fields acc : fill tenv fields acc <> CFuel.
Proof.
  induction fields as [|[f t] fields IH]; [discriminate|]. cbn [fill]. apply bind_ends; [destruct (assoc f acc); [discriminate|]; destruct (is_option tenv t); discriminate|].
  intros v. apply bind_ends; [exact IH|discriminate].
Qed.
Lemma fields_end rec deny fields es : (forall f t x, In (f, t) fields -> rec t x <> CFuel) -> content_fields tenv rec deny fields es <> CFuel.
Proof. intros H. unfold content_fields. destruct (forallb _ es); [|discriminate]. apply bind_ends; [now apply entries_end|]. intros acc. apply fill_ends. Qed.
Lemma struct_ends rec deny fields x : (forall f t x, In (f, t) fields -> rec t x <> CFuel) -> content_struct_of tenv rec deny fields x <> CFuel.
Proof.
  intros H. destruct x; cbn [content_struct_of]; try discriminate; [now apply fields_end|].
  apply bind_ends; [|discriminate]. apply exact_ends. intros f y IN. apply in_map_iff in IN as ([k t] & <- & IN). cbn. now apply (H k).
Qed.
Lemma find_variant_ends variants k : find_variant variants k <> CFuel.
Proof.
  unfold find_variant. destruct k as [b|c|m|n| |x|s|b|l|]; try discriminate.
  { destruct n as [k z|]; [|discriminate]. destruct k; try discriminate; destruct (nth_error _ _); discriminate. }
  all: destruct (find _ _); discriminate.
Qed.
Lemma find_variant_in variants k p : find_variant variants k = CVal p -> In p variants.
Proof.
  unfold find_variant. destruct k as [b|c|m|n| |x|s|b|l|]; try discriminate.
  { destruct n as [k z|]; [|discriminate]. destruct k; try discriminate; destruct (nth_error _ _) eqn:Q; try discriminate; intros H; injection H as <-; now apply nth_error_In in Q. }
  all: destruct (find _ _) eqn:Q; try discriminate; intros H; injection H as <-; now apply find_some in Q.
Qed.
Lemma into_byte_ends x : into_byte x <> CFuel.
Proof. unfold into_byte. destruct x; try discriminate. destruct (num_into n (TInt U8)) as [[]|]; discriminate. Qed.

Variable rank : nat -> nat.
Hypothesis RK : ranked tenv rank.
Lemma in_depth {A} (g : A -> nat) l a n : In a l -> (list_max (map g l) <= n)%nat -> (g a <= n)%nat.
Proof. intros IN L. apply (in_map g) in IN. apply (list_max_in (fun _ => TBool) (fun _ => O)) in IN. lia. Qed.
Section Step.
Variable f : nat.
Variable rec : ty -> value -> conv val.
Hypothesis IH : forall t x, (tdepth rank t < f)%nat -> rec t x <> CFuel.
Hypothesis UN : forall x, (0 < f)%nat -> rec TUnit x <> CFuel.
Lemma step_ends t x : (forall n, t <> TRef n) -> (tdepth rank t < S f)%nat -> content_step tenv rec t x <> CFuel.
Proof.
  intros NR L.
  assert (TS : forall ts l, (list_max (map (tdepth rank) ts) < f)%nat -> exact_elems (map rec ts) l <> CFuel).
  { intros ts l LT. apply exact_ends. intros g y IN. apply in_map_iff in IN as (t' & <- & IN). apply IH.
    enough (tdepth rank t' <= list_max (map (tdepth rank) ts))%nat by lia. now apply (in_depth _ ts). }
  assert (FS : forall (fs : list (str * ty)) k t' y, (list_max (map (fun p => tdepth rank (snd p)) fs) < f)%nat -> In (k, t') fs -> rec t' y <> CFuel).
  { intros fs k t' y LT IN. apply IH. enough (tdepth rank t' <= list_max (map (fun p => tdepth rank (snd p)) fs))%nat by lia.
    now apply (in_depth (fun p => tdepth rank (snd p)) fs (k, t')). }
  pose proof L as L0. destruct t; cbn [content_step]; cbn [tdepth] in L.
  - destruct x; discriminate.
  - destruct (is_128 k); [discriminate|]. destruct x; try discriminate. destruct (num_into _ _); discriminate.
  - destruct x; try discriminate. destruct (num_into _ _); discriminate.
  - destruct x; try discriminate. destruct s as [|? [|? ?]]; discriminate.
  - destruct x; try discriminate. destruct (from_utf8 _); discriminate.
  - destruct x; try discriminate. apply bind_ends; [|discriminate]. apply all_elems_ends, into_byte_ends.
  - destruct x; discriminate.
  - destruct x; discriminate.
  - destruct x; try discriminate; (apply bind_ends; [apply IH; lia|discriminate]).
  - apply bind_ends; [apply IH; lia|discriminate].
  - destruct x; try discriminate. apply bind_ends; [|discriminate]. apply all_elems_ends. intros y. apply IH. lia.
  - destruct x; try discriminate. apply bind_ends; [|discriminate]. apply TS. lia.
  - destruct x; try discriminate. apply bind_ends; [|discriminate]. apply TS. lia.
  - destruct x; try discriminate. apply bind_ends; [|discriminate]. apply all_entries_ends; intros y; apply IH; lia.
  - apply bind_ends; [|discriminate]. apply struct_ends. intros k t' y IN. apply (FS fields k); [lia|exact IN].
  - change (S (list_max (map (fun p => vdepth rank (snd p)) variants)) < S f)%nat in L0. clear L.
    destruct x as [b|c|m|n| |x|s|b|l|]; try discriminate.
    + destruct m as [|[k y] [|? ?]]; try discriminate. destruct (find_variant variants k) as [p| |] eqn:Q; cbn [cbind]; [|discriminate|now apply find_variant_ends in Q].
      apply find_variant_in in Q. assert (VD : (vdepth rank (snd p) < f)%nat).
      { enough (vdepth rank (snd p) <= list_max (map (fun p => vdepth rank (snd p)) variants))%nat by lia. now apply (in_depth (fun p => vdepth rank (snd p)) variants). }
      destruct (snd p) as [|t|ts|d fs]; cbn [vdepth] in VD.
      * apply bind_ends; [|discriminate]. apply UN. exact VD.
      * apply bind_ends; [apply IH; exact VD|discriminate].
      * destruct y; try discriminate. apply bind_ends; [|discriminate]. now apply TS.
      * apply bind_ends; [|discriminate]. apply struct_ends. intros k' t' y' IN. now apply (FS fs k').
    + destruct (find_variant variants (XStr s)) as [p| |] eqn:Q; cbn [cbind]; [|discriminate|now apply find_variant_ends in Q]. destruct (snd p); discriminate.
  - discriminate.
  - discriminate.
  - discriminate.
  - now destruct (NR n).
Qed.
End Step.
Theorem of_content_ends f : forall t x, (tdepth rank t < f)%nat -> of_content tenv f t x <> CFuel.
Proof.
  induction f as [|f IH]; intros t x L; [lia|]. cbn [of_content].
  destruct t; try (apply step_ends with f; [exact IH| |discriminate|exact L]; intros y L'; destruct f; [lia|]; cbn; destruct y; discriminate).
  apply IH. cbn [tdepth] in L. specialize (RK n). lia.
Qed.
Theorem of_owned_ends f : forall t x, (tdepth rank t < f)%nat -> of_owned tenv f t x <> CFuel.
Proof.
  induction f as [|f IH]; intros t x L; [lia|]. cbn [of_owned].
  destruct t; try (apply step_ends with f; [exact IH| |discriminate|exact L]; intros y L'; destruct f; [lia|]; cbn; destruct y as [| |[|? ?]| | | | | | |]; discriminate).
  - destruct x as [| |[|? ?]| | | | | | |]; discriminate.
  - destruct x as [| |[|? ?]| | | | | |[|? ?]|]; discriminate.
  - apply IH. cbn [tdepth] in L. specialize (RK n). lia.
Qed.

(** the variants *)
Definition udepth (u : uvariant) : nat :=
  match u with UUnit => 0%nat | UNew t => tdepth rank t | UTup ts => S (list_max (map (tdepth rank) ts)) | UStruct _ _ fs => S (list_max (map (fun p => tdepth rank (snd p)) fs)) end.
Lemma as_variant_ends f u x : (udepth u < f)%nat -> as_variant tenv f u x <> CFuel.
Proof.
  intros L. destruct u as [|t|ts|name deny fields]; cbn [as_variant udepth] in *.
  - destruct x; discriminate.
  - now apply of_content_ends.
  - apply of_content_ends. exact L.
  - destruct x; try discriminate. apply of_content_ends. exact L.
Qed.
Lemma first_variant_ends f x us : (forall u, In u us -> (udepth u < f)%nat) -> forall i, first_variant tenv f i us x <> CFuel.
Proof.
  induction us as [|u us IH]; intros H i; [discriminate|]. cbn [first_variant]. destruct (as_variant tenv f u x) eqn:Q; [discriminate| |].
  - apply IH. intros; apply H; now right.
  - exfalso. eapply as_variant_ends; [|exact Q]. apply H. now left.
Qed.
Definition idepth (w : ivariant) : nat :=
  match w with IUnit => 0%nat | INew t => S (tdepth rank t) | IStruct _ fs => list_max (map (fun p => tdepth rank (snd p)) fs) end.
Lemma of_tagged_ends f name k x : (idepth (snd k) < f)%nat -> of_tagged tenv f name k x <> CFuel.
Proof.
  intros L. unfold of_tagged. destruct (snd k) as [|t|deny fields]; cbn [idepth] in L.
  - destruct x as [| | | | | | | |[|? ?]|]; discriminate.
  - apply bind_ends; [apply of_owned_ends; lia|discriminate].
  - apply bind_ends; [|discriminate]. apply struct_ends. intros k' t' y IN. apply of_owned_ends.
    enough (tdepth rank t' <= list_max (map (fun p => tdepth rank (snd p)) fields))%nat by lia.
    now apply (in_depth (fun p => tdepth rank (snd p)) fields (k', t')).
Qed.
End WithEnv.
