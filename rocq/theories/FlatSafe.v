(** Reading a struct with flattened fields ends without panicking (C59). *)
From Coq Require Import String Ascii NArith ZArith Lia Bool List.
From Coq Require Import ZifyBool ZifyNat ZifyN.
From Verif Require Import Base Facts Value Data Parse De Span Wp EnvOk LexSafe DeSafe DocSafe IntoRust Content ContentSafe Tagged Fuel ConvFuel AdjacentSafe Flatten.
Import ListNotations.
Open Scope N_scope.
Open Scope list_scope.
Open Scope m_scope.

Section WithEnv.
Context {E : Env} {X : XidOk E}.
Variable tenv : nat -> ty.
Variable rank : nat -> nat.
Hypothesis RK : ranked tenv rank.
Variable T : str.
Notation ok s m := (wp m (fun _ s' => dok T s s') (fun _ s' => derr T s s') s).
(** how deep the types of a field are *)
Definition fdepth (d : fdecl) : nat :=
  match d with
  | FOwn t => tdepth rank t
  | FStruct _ fields => list_max (map (fun p => tdepth rank (snd p)) fields)
  | FMap t => Nat.max 1 (tdepth rank t)
  end.
Variable fuel : nat.
Variable deny : bool.
Variable sname : str.
Variable decls : list (str * fdecl).
Hypothesis DEEP : forall d, In d decls -> (fdepth (snd d) < fuel)%nat.

Lemma owns_deep k t : assoc k (owns decls) = Some t -> (tdepth rank t < fuel)%nat.
Proof.
  intros H. apply assoc_in in H. unfold owns in H. apply in_flat_map in H as ([k' d] & IN & H). apply DEEP in IN. cbn [snd fst] in *.
  destruct d; cbn in H; try contradiction. destruct H as [H|[]]. injection H as <- <-. exact IN.
Qed.
Lemma flat_loop_safe n l k : forall acc had s, inv T s -> at_ n false l s -> (length (rest s) + 1 <= k)%nat ->
  ok s (flat_loop tenv fuel decls k acc had).
Proof.
  induction k as [|k IH]; intros acc had s I P L; [lia|]. cbn [flat_loop].
  assert (FK : fine T parse_string) by (apply fine_safe; intros; apply safe_total, total_parse_string).
  apply wp_bind. eapply wp_conseq; [apply (next_key_safe T n l c_rc _ had s (fine_gd T _ n l FK) I P)| |auto]. cbn beta.
  intros [a|] s1 [D1 _]; [|now apply wp_ret].
  assert (P1 := at_dok _ _ _ _ _ _ P D1). assert (Y1 := dok_len _ _ _ D1).
  eapply wp_conseq with (Q := fun _ s' => dok T s1 s') (R := fun _ s' => derr T s1 s').
  2:{ cbn. intros. eapply dok_trans; eassumption. }
  2:{ cbn. intros. eapply dok_derr_trans; eassumption. }
  assert (STEP : forall C D0 (m : M C) (k' : C * bool -> M D0), fine T m ->
    (forall p s2, dok T s1 s2 -> (length (rest s2) < length (rest s1))%nat -> ok s2 (k' p)) -> ok s1 (p <- next_value m ;; k' p)).
  { intros C D0 m k' Fm K. apply wp_bind.
    eapply wp_conseq; [apply (next_value_safe T n l m s1 (fine_gd T _ n l Fm)); [apply D1|exact P1]| |auto].
    cbn beta. intros p s2 [D2 L2]. eapply wp_conseq; [apply (K p s2 D2 L2)| |]; cbn; intros;
      [eapply dok_trans|eapply dok_derr_trans]; eassumption. }
  destruct (assoc a (owns decls)) as [t|] eqn:AS.
  - destruct (assoc a acc); [apply wp_fail, derr_refl, D1|]. apply STEP.
    + apply de_ty_fine with rank; [exact RK|]. apply owns_deep in AS. lia.
    + intros p s2 D2 L2. apply IH; [apply D2|eapply at_dok; eassumption|lia].
  - apply STEP; [apply fine_safe; intros; apply safe_content_value|].
    intros p s2 D2 L2. apply wp_step; [apply IH; [apply D2|eapply at_dok; eassumption|lia]|]. intros q s3 D3. apply wp_ret, dok_refl, D3.
Qed.
Lemma flat_rest_ends ds : (forall d, In d ds -> (fdepth (snd d) < fuel)%nat) -> forall l, flat_rest tenv fuel ds l <> CFuel.
Proof.
  induction ds as [|[k d] ds IH]; intros H l; [discriminate|]. cbn [flat_rest]. assert (HD := H (k, d) (or_introl eq_refl)). cbn [snd] in HD.
  assert (IH' : forall l, flat_rest tenv fuel ds l <> CFuel) by (apply IH; intros; apply H; now right).
  destruct d as [t|name fields|t]; [apply IH'|..]; cbn [fdepth] in HD.
  - apply bind_ends; [|intros fs; apply bind_ends; [apply IH'|discriminate]].
    apply fields_end. intros f t x IN. apply (of_owned_ends tenv rank RK).
    assert (tdepth rank t <= list_max (map (fun p => tdepth rank (snd p)) fields))%nat; [|lia].
    apply (in_depth (fun p => tdepth rank (snd p)) fields (f, t)); [exact IN|lia].
  - apply bind_ends; [|intros fs; apply bind_ends; [apply IH'|discriminate]].
    apply all_entries_ends; intros x; apply (of_content_ends tenv rank RK); cbn [tdepth]; lia.
Qed.
Theorem de_flat_fine : fine T (de_flat tenv fuel deny sname decls).
Proof.
  intros s I. unfold de_flat. apply wp_de_map with (length (rest s)); [assumption|lia|]. intros _. apply gd_all. intros l s1 I1 P1.
  unfold flat_map_body. eapply wp_bind_ok; [reflexivity|]. apply wp_step; [apply (flat_loop_safe (length (rest s)) l); [assumption|assumption|lia]|].
  intros q s2 D2. apply wp_step; [apply wp_token; [apply D2|apply collect_total]|]. intros own s3 D3.
  destruct (flat_rest tenv fuel decls (snd q)) as [[flat left]|er|] eqn:Q.
  - destruct (_ && _); [apply wp_fail, derr_refl, D3|apply wp_ret, dok_refl, D3].
  - apply wp_fail, derr_refl, D3.
  - now apply (flat_rest_ends decls DEEP) in Q.
Qed.
End WithEnv.
