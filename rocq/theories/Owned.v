(** serde's ContentDeserializer reads whatever its ContentRefDeserializer
    reads. *)
From Coq Require Import NArith ZArith Bool List.
From Verif Require Import Base Facts Value Data Parse De IntoRust Content Tagged.
Import ListNotations.
Open Scope N_scope.
Open Scope list_scope.
Open Scope cv_scope.

Definition more {A B} (f g : A -> conv B) : Prop := forall x v, f x = CVal v -> g x = CVal v.
Lemma bind_more {A B} (m m' : conv A) (k k' : A -> conv B) : (forall a, m = CVal a -> m' = CVal a) -> more k k' ->
  forall v, cbind m k = CVal v -> cbind m' k' = CVal v.
Proof. intros H K v. destruct m as [a| |]; try discriminate. cbn [cbind]. intros HV. rewrite (H a eq_refl). now apply K. Qed.
Lemma ret_more {A B} (f : A -> B) : more (fun a => CVal (f a)) (fun a => CVal (f a)).
Proof. now intros a v. Qed.
Lemma same_more {A B} (f : A -> conv B) : more f f.
Proof. now intros a v. Qed.
Lemma all_elems_more {A} (f g : value -> conv A) l : more f g -> forall v, all_elems f l = CVal v -> all_elems g l = CVal v.
Proof.
  intros H. induction l as [|x l IH]; [auto|]. intros v. cbn [all_elems]. apply bind_more; [apply H|]. intros a v0. apply bind_more; [exact IH|apply same_more].
Qed.
Lemma all_entries_more {A B} (f f' : value -> conv A) (g g' : value -> conv B) l : more f f' -> more g g' -> forall v, all_entries f g l = CVal v -> all_entries f' g' l = CVal v.
Proof.
  intros H1 H2. induction l as [|[k x] l IH]; [auto|]. intros v. cbn [all_entries]. apply bind_more; [apply H1|]. intros a v0.
  apply bind_more; [apply H2|]. intros b v1. apply bind_more; [exact IH|apply same_more].
Qed.
Lemma take_elems_more (fs gs : list (value -> conv val)) : Forall2 more fs gs -> forall i l v, take_elems fs i l = CVal v -> take_elems gs i l = CVal v.
Proof.
  induction 1 as [|f g fs gs H F IH]; intros i l v; [auto|]. cbn [take_elems]. destruct l as [|x l]; [auto|].
  apply bind_more; [apply H|]. intros a v0. apply bind_more; [apply IH|apply same_more].
Qed.
Lemma more_map {A} (f g : A -> value -> conv val) l : (forall a, more (f a) (g a)) -> Forall2 more (map f l) (map g l).
Proof. intros H. induction l; constructor; auto. Qed.

Section WithEnv.
Context {E : Env}.
Variable tenv : nat -> ty.
Lemma exact_more fs gs l : Forall2 more fs gs -> forall v, exact_elems fs l = CVal v -> exact_elems gs l = CVal v.
Proof. intros F v. unfold exact_elems. apply bind_more; [now apply take_elems_more|apply same_more]. Qed.
Section Rec.
Variables rec rec' : ty -> value -> conv val.
Hypothesis H : forall t, more (rec t) (rec' t).
Lemma entries_more deny fields es : forall acc v, struct_entries rec deny fields acc es = CVal v -> struct_entries rec' deny fields acc es = CVal v.
Proof.
  induction es as [|[k x] es IH]; intros acc v; [auto|]. cbn [struct_entries]. apply bind_more; [auto|].
  intros [[f t]|] v0; [|apply IH]. destruct (assoc f acc); [auto|]. apply bind_more; [apply H|]. intros a v1. apply IH.
Qed.
Lemma fields_more deny fields es : forall v, content_fields tenv rec deny fields es = CVal v -> content_fields tenv rec' deny fields es = CVal v.
Proof. intros v. unfold content_fields. destruct (forallb _ es); [|auto]. apply bind_more; [apply entries_more|apply same_more]. Qed.
Lemma struct_more deny fields x : forall v, content_struct_of tenv rec deny fields x = CVal v -> content_struct_of tenv rec' deny fields x = CVal v.
Proof.
  intros v. destruct x; cbn [content_struct_of]; auto; [apply fields_more|]. apply bind_more; [|apply same_more]. apply exact_more, more_map. intros; apply H.
Qed.
Lemma step_more t x : forall v, content_step tenv rec t x = CVal v -> content_step tenv rec' t x = CVal v.
Proof.
  intros v. destruct t; cbn [content_step]; auto.
  - destruct x; auto; (apply bind_more; [apply H|apply same_more]).
  - apply bind_more; [apply H|apply same_more].
  - destruct x; auto. apply bind_more; [apply all_elems_more, H|apply same_more].
  - destruct x; auto. apply bind_more; [apply exact_more, more_map, H|apply same_more].
  - destruct x; auto. apply bind_more; [apply exact_more, more_map, H|apply same_more].
  - destruct x; auto. apply bind_more; [apply all_entries_more; apply H|apply same_more].
  - apply bind_more; [apply struct_more|apply same_more].
  - destruct x as [b|c|m|n| |x|s|b|l|]; auto. destruct m as [|[k y] [|? ?]]; auto. apply bind_more; [auto|]. intros p v0.
    destruct (snd p).
    + apply bind_more; [apply H|apply same_more].
    + apply bind_more; [apply H|apply same_more].
    + destruct y; auto. apply bind_more; [apply exact_more, more_map, H|apply same_more].
    + apply bind_more; [apply struct_more|apply same_more].
Qed.
End Rec.
Theorem owned_more f : forall t, more (of_content tenv f t) (of_owned tenv f t).
Proof.
  induction f as [|f IH]; intros t x v; [discriminate|]. cbn [of_content of_owned].
  destruct t; try (apply step_more; exact IH); try apply IH; cbn [content_step]; destruct x; try discriminate; auto.
Qed.
End WithEnv.
