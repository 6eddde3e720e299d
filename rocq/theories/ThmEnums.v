(** C16, C17 for untagged and tagged enums as a whole: buffer, conversion and
    all. *)
From Coq Require Import String Ascii NArith ZArith Lia Bool List.
From Verif Require Import Base Facts Value Data Parse De Span Wp EnvOk LexSafe DeSafe DocSafe IntoRust Content ContentSafe Tagged TaggedSafe Adjacent Fuel ConvFuel AdjacentSafe Toy ThmTyped ThmUntagged ThmTagged ThmAdjacent.
Import ListNotations.
Open Scope N_scope.
Open Scope list_scope.
Open Scope m_scope.

Section Proofs.
Context {E : Env} {X : XidOk E}.

(** what a fine reader does to a document *)
Lemma fine_outcome {A} o (m : M A) text : fine text m -> options_from_str o m text <> RPanic /\ options_from_str o m text <> RDiverges.
Proof.
  intros F. assert (D : match from_str o m text with Ok _ s' => inv text s' | Err _ s' => inv text s' | _ => False end).
  { unfold from_str. assert (W : wp (document o m) (fun _ s' => inv text s' /\ rest s' = [] /\ lim s' = o_limit o) (fun _ s' => inv text s') (init_state text)).
    { apply wp_document. intros s J _. now apply F. }
    Transparent wp. unfold wp in W. Opaque wp. destruct (document _ _ _); tauto. }
  unfold options_from_str, spanned. destruct (from_str _ _ _) as [a s'|e s'| |]; try contradiction; [split; discriminate|].
  destruct (span_of_inv _ _ D) as (a & b & _ & _ & _ & _ & ->). split; discriminate.
Qed.

(** ** The readers *)
Lemma untagged_fine tenv rank T f us : ranked tenv rank -> (forall u, In u us -> (udepth rank u < f)%nat) -> fine T (de_untagged tenv f us).
Proof.
  intros RK H. unfold de_untagged. apply fine_bind; [apply fine_safe; intros; apply safe_content_value|]. intros x.
  destruct (first_variant tenv f 0 us x) eqn:Q; [apply fine_ret|apply fine_fail|now apply (first_variant_ends tenv rank RK) in Q].
Qed.
Section Tagged.
Variable tag : str.
Variable variants : list (str * ivariant).
Notation known p := (In (fst p) variants).
Lemma variant_of_known s : yields (variant_of variants s) (fun p => In p variants).
Proof. unfold variant_of. destruct (find _ _) eqn:Q; [|discriminate]. intros s0 v s1 HS. injection HS as <- _. now apply find_some in Q. Qed.
Lemma yields_fail {A} e R : yields (@fail A e) R.
Proof. discriminate. Qed.
Lemma yields_ret {A} (a : A) (R : A -> Prop) : R a -> yields (ret a) R.
Proof. intros H s v s' HS. now injection HS as <- _. Qed.
Lemma then_yields {A B} (m : M A) (k : A -> M B) R : (forall a, yields (k a) R) -> yields (bind m k) R.
Proof. intros H. eapply yields_bind; [apply yields_any|]. intros a _. apply H. Qed.
Lemma yields_tuple {A} (m : M A) R : yields m R -> yields (de_tuple m) R.
Proof.
  intros H. apply then_yields. intros s. apply then_yields. intros []; [|apply yields_fail]. apply then_yields. intros _.
  eapply yields_bind; [apply yields_guard, H|]. intros v HV. apply then_yields. intros _. apply then_yields. intros []; [now apply yields_ret|apply yields_fail].
Qed.
Lemma yields_seq {A} (m : M A) R : yields m R -> yields (de_seq m) R.
Proof.
  intros H. apply then_yields. intros s. apply then_yields. intros []; [|apply yields_fail].
  eapply yields_bind; [apply yields_guard, H|]. intros v HV. apply then_yields. intros _. apply then_yields. intros []; [now apply yields_ret|apply yields_fail].
Qed.
Lemma yields_map {A} (m : M A) R : yields m R -> yields (de_map m) R.
Proof.
  intros H. apply then_yields. intros s. apply then_yields. intros []; [|apply yields_fail].
  eapply yields_bind; [apply yields_guard, H|]. intros v HV. apply then_yields. intros _. apply then_yields. intros []; [now apply yields_ret|apply yields_fail].
Qed.
Lemma yields_named {A} name (m : M A) R : yields m R -> yields (struct_after_name name m) R.
Proof.
  intros H. apply then_yields. intros s. apply then_yields. intros []; [|destruct name; apply yields_fail]. apply then_yields. intros _.
  eapply yields_bind; [apply yields_guard, yields_map_err, H|]. intros v HV. apply then_yields. intros _. apply then_yields. intros []; [now apply yields_ret|apply yields_fail].
Qed.
Lemma yields_value {A} (m : M A) R : yields m R -> yields (next_value m) (fun p => R (fst p)).
Proof.
  intros H. apply then_yields. intros _. apply then_yields. intros []; [|apply yields_fail]. apply then_yields. intros _.
  eapply yields_bind; [apply yields_guard, H|]. intros v HV. apply then_yields. intros c. now apply yields_ret.
Qed.
Lemma loop_known n term key : forall seen had, (forall p, seen = Some p -> In p variants) ->
  yields (tagged_loop tag variants n term key seen had) (fun q => forall p, fst q = Some p -> In p variants).
Proof.
  induction n as [|n IH]; intros seen had H; [discriminate|]. cbn [tagged_loop]. apply then_yields. intros [k|]; [|now apply yields_ret].
  destruct (is_tag tag k).
  - destruct seen; [apply yields_fail|]. eapply yields_bind; [apply yields_value; unfold tag_value; apply then_yields; intros; apply variant_of_known|].
    intros p HP. apply IH. intros q HQ. now injection HQ as <-.
  - apply then_yields. intros p. eapply yields_bind; [apply IH; exact H|]. intros q HQ. now apply yields_ret.
Qed.
Lemma map_known term key : yields (tagged_map tag variants term key) (fun p => known p).
Proof.
  apply then_yields. intros r. eapply yields_bind; [apply loop_known; discriminate|]. intros q HQ. destruct (fst q) eqn:Q; [|apply yields_fail].
  apply yields_ret. now apply HQ.
Qed.
Lemma seq_known term : yields (tagged_seq tag variants term) (fun p => known p).
Proof.
  apply then_yields. intros r. eapply yields_bind with (Q := fun p => forall v, fst p = Some v -> In v variants).
  - apply then_yields. intros []; [|now apply yields_ret].
    eapply yields_bind; [apply yields_guard; apply then_yields; intros; apply variant_of_known|]. intros v HV. apply then_yields. intros c.
    apply yields_ret. intros w HW. now injection HW as <-.
  - intros [[v|] c] H; [|apply yields_fail]. apply then_yields. intros l. apply yields_ret. now apply H.
Qed.
Lemma struct_known : yields (tagged_struct tag variants) (fun p => known p).
Proof.
  apply then_yields. intros []; first [apply yields_fail|apply yields_tuple, seq_known|apply yields_named, map_known].
Qed.
Lemma untaggable_yields {A} m (R : A -> Prop) : yields (untaggable tag m) R.
Proof. apply then_yields. intros []; apply yields_fail. Qed.
Lemma main_known : yields (tagged_main tag variants) (fun p => known p).
Proof.
  unfold tagged_main.
  repeat (apply then_yields; first [intros []; [first [apply yields_fail|apply untaggable_yields|apply then_yields; intros; apply yields_fail]|]|
    intros b; apply then_yields; intros []; [apply untaggable_yields|]|idtac]).
  intros [id|]; [apply then_yields; intros _; apply struct_known|]. apply then_yields. intros c.
  destruct (c =? c_lp); [apply struct_known|]. destruct (c =? c_lb); [apply yields_seq, seq_known|]. destruct (c =? c_lc); [apply yields_map, map_known|].
  destruct (_ || _); [apply untaggable_yields|]. destruct (_ || _); [apply then_yields; intros; apply yields_fail|].
  destruct (c =? c_sq); [apply then_yields; intros; apply yields_fail|apply yields_fail].
Qed.
Lemma any_known : yields (tagged_any tag variants) (fun p => known p).
Proof.
  apply then_yields. intros s. destruct (nt s); [|apply main_known]. apply then_yields. intros []; [apply then_yields; intros; apply yields_fail|].
  apply then_yields. intros []; first [apply yields_tuple, seq_known|apply yields_named, map_known|apply then_yields; intros _; apply main_known].
Qed.
Lemma tagged_fine tenv rank T f name : ranked tenv rank -> (forall p, In p variants -> (idepth rank (snd p) < f)%nat) -> fine T (de_tagged tenv f tag name variants).
Proof.
  intros RK H s I. unfold de_tagged. apply wp_bind.
  eapply wp_conseq; [apply (wp_yields _ _ _ _ s (tagged_any_safe tag variants T (fun _ => True) s I Logic.I) any_known)| |auto].
  cbn beta. intros p s1 [D1 IN]. destruct (of_tagged tenv f name (fst p) (snd p)) eqn:Q; [now apply wp_ret|apply wp_fail; now apply dok_derr|].
  exfalso. revert Q. apply (of_tagged_ends tenv rank RK). now apply H.
Qed.
End Tagged.

(** ** The theorems

    The types in the variants are not recursive; the fuel reaches all of them. *)
Theorem C17_untagged_terminates tenv rank o f us text : ranked tenv rank -> (forall u, In u us -> (udepth rank u < f)%nat) ->
  options_from_str o (de_untagged tenv f us) text <> RPanic /\ options_from_str o (de_untagged tenv f us) text <> RDiverges.
Proof. intros RK H. now apply fine_outcome, untagged_fine with rank. Qed.
Theorem C17_tagged_enum_terminates tenv rank o f tag name variants text : ranked tenv rank -> (forall p, In p variants -> (idepth rank (snd p) < f)%nat) ->
  options_from_str o (de_tagged tenv f tag name variants) text <> RPanic /\ options_from_str o (de_tagged tenv f tag name variants) text <> RDiverges.
Proof. intros RK H. now apply fine_outcome, tagged_fine with rank. Qed.
Theorem C17_adjacent_terminates tenv rank o f tag content deny name variants text : ranked tenv rank -> (forall p, In p variants -> (adepth rank (snd p) < f)%nat) ->
  options_from_str o (de_adjacent tenv f tag content deny name variants) text <> RPanic /\
  options_from_str o (de_adjacent tenv f tag content deny name variants) text <> RDiverges.
Proof. intros RK H. now apply fine_outcome, de_adjacent_fine with rank. Qed.
End Proofs.
Print Assumptions C17_untagged_terminates.
Print Assumptions C17_tagged_enum_terminates.
Print Assumptions C17_adjacent_terminates.

#[local] Existing Instance Toy.
(** the types of the examples of C58, at the fuel used there *)
Example C17_adjacent_ex : ranked no_refs (fun _ => 1%nat) /\ (forall p, In p ex_avariants -> (adepth (fun _ => 1%nat) (snd p) < 9)%nat) /\
  (exists sp, adj_de opts_default (lit "(t:N,c:Some(1)") = RError EExpectedComma sp) /\
  (exists sp, adj_de opts_default (lit "(c:[[[[") = RError EEof sp).
Proof.
  split; [intros n; cbn; lia|]. split.
  { intros p IN. cbn in IN. repeat (destruct IN as [<-|IN]; [cbn; lia|]). destruct IN. }
  split; eexists; vm_compute; reflexivity.
Qed.
Example C17_untagged_ex :
  (forall u, In u [UNew (TOption (TInt U8)); UTup [TBool; TStr]] -> (udepth (fun _ => 1%nat) u < 5)%nat) /\
  options_from_str opts_default (de_untagged no_refs 5 [UNew (TOption (TInt U8)); UTup [TBool; TStr]]) (lit "(true, ""a"")")
    = RValue (1%nat, VTuple [VBool true; VStr (lit "a")]).
Proof. split; [intros u [<-|[<-|[]]]; cbn; lia|vm_compute; reflexivity]. Qed.
Example C17_tagged_ex :
  (forall p, In p [(lit "A", INew (TStruct false (lit "P") [(lit "x", TOption TBool)])); (lit "B", IUnit)] -> (idepth (fun _ => 1%nat) (snd p) < 6)%nat) /\
  options_from_str opts_default (de_tagged no_refs 6 (lit "t") (lit "E") [(lit "A", INew (TStruct false (lit "P") [(lit "x", TOption TBool)])); (lit "B", IUnit)]) (lit "(x: Some(true), t: ""A"")")
    = RValue (VNewVariant (lit "E") (lit "A") (VStruct (lit "P") [(lit "x", VSome (VBool true))])).
Proof. split; [intros p [<-|[<-|[]]]; cbn; lia|vm_compute; reflexivity]. Qed.
