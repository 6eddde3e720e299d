(** C16, C17, C54: untagged enums, which are read through serde's buffer. *)
From Coq Require Import String Ascii NArith ZArith Lia Bool List.
From Verif Require Import Base Facts Value Data Parse De Span Ser Wp EnvOk Layout Lit Attr LexSafe DeSafe Limit Inv LexWs LexRead DocSafe DocRead SerLex LexDoc IntoRust Content ContentSafe Typing Repr ReprFacts TypedRead VRepr AnyRead AnyMain Unwrap ContentRead ContentMain ContentDepth Accept ThmAny ThmLimit Toy.
Import ListNotations.
Open Scope N_scope.
Open Scope list_scope.
Open Scope m_scope.

Section WithEnv.
Context {E : Env} {X : XidOk E}.

(** ** C16, C17: reading into the buffer *)
Lemma content_outcome o text :
  match from_str o content_value text with
  | Ok _ s' => inv text s' /\ rest s' = []
  | Err _ s' => inv text s'
  | Panic | OutOfFuel => False
  end.
Proof.
  unfold from_str.
  assert (W : wp (document o content_value) (fun _ s' => inv text s' /\ rest s' = [] /\ lim s' = o_limit o)
                 (fun _ s' => inv text s') (init_state text)).
  { apply wp_document. intros s I _. now apply (safe_content_value text (fun _ => True)). }
  Transparent wp. unfold wp in W. Opaque wp. destruct (document _ _ _); tauto.
Qed.
Theorem C16_no_panic_buffered o text : options_from_str o content_value text <> RPanic.
Proof.
  unfold options_from_str, spanned. assert (D := content_outcome o text).
  destruct (from_str _ _ _) as [a s'|e s'| |]; try discriminate; try contradiction.
  destruct (span_of_inv _ _ D) as (a & b & _ & _ & _ & _ & ->). discriminate.
Qed.
(** the fuel of [content_value] is twice the length of the text *)
Theorem C17_buffered_terminates o text : options_from_str o content_value text <> RDiverges.
Proof.
  unfold options_from_str, spanned. assert (D := content_outcome o text).
  destruct (from_str _ _ _) as [a s'|e s'| |]; try discriminate; try contradiction.
  destruct (span_error _ _); discriminate.
Qed.

(** ** Texts that are read *)
Context {FO : FloatOk E}.
Lemma crepr_start u c x t r : crepr u c x t -> value_start (t ++ r).
Proof.
  intros H. assert (O := crepr_opens u c x t r H). split; [now apply opens_solid|].
  destruct (t ++ r) as [|d q]; [exact Logic.I|]. destruct O as [_ O]. intros ->. apply O. cbn. tauto.
Qed.
Theorem content_document {A} o c x w0 at0 e t w1 (k : value -> M A) a :
  layout w0 -> attrs_text at0 e -> crepr (x_unwrap_variant_newtypes (exts_or e (o_exts o))) c x t ->
  final_layout w1 -> room c (o_limit o) -> (forall s, k x s = Ok a s) ->
  options_from_str o (bind content_value k) (w0 ++ at0 ++ t ++ w1) = RValue a.
Proof.
  intros L HA HV FL RM HK. eapply document_reads_final; [exact L|exact HA|now apply crepr_start with (1 := HV)|].
  intros T s J Hs He Hn Hl _. unfold content_value. apply wp_bind. eapply wp_bind_ok; [reflexivity|].
  replace (2 * length (rest s) + 3)%nat with (S (2 * length (rest s) + 2)) by lia.
  destruct (creads_good _ (2 * length (rest s) + 2)%nat c x t (crepr_reads _ c x t HV)) as [_ TW]; [rewrite Hs, app_length; unfold str, char in *; lia|].
  eapply wp_conseq; [apply (TW T s w1 final_layout); auto; [now left|now rewrite Hl]| |auto]. cbn beta.
  intros x' s' (-> & R). eapply wp_ok; [apply HK|]. tauto.
Qed.
End WithEnv.

(** ** C54: nesting *)
(** enum Rec { A(Box<Rec>), B }, the only variant of an untagged enum *)
Definition n_A : str := Eval vm_compute in lit "A".
Definition n_B : str := Eval vm_compute in lit "B".
Definition n_Rec : str := Eval vm_compute in lit "Rec".
Definition rec_types (_ : nat) : ty := TEnum n_Rec [(n_A, WNew (TRef 0)); (n_B, WUnit)].
(** A(A(...(B)...)) *)
Fixpoint rec_text (n : nat) : str := match n with O => n_B | S n => n_A ++ c_lp :: rec_text n ++ [c_rp] end.
Fixpoint rec_value (n : nat) : val := match n with O => VUnitVariant n_Rec n_B | S n => VNewVariant n_Rec n_A (rec_value n) end.
Fixpoint rec_content (n : nat) : value := match n with O => XStr n_B | S n => XMap [(XStr n_A, rec_content n)] end.

Section Nesting.
Context {E : Env} {X : XidOk E} {FO : FloatOk E}.
Lemma letter_ident c : (65 <=? c) && (c <=? 90) = true -> ident_lit [c] [c].
Proof.
  intros H. constructor; [|reflexivity]. unfold is_ident_first_char. rewrite xid_start_ascii by lia. unfold is_alpha. lia.
Qed.
Lemma rec_crepr u c n : crepr u c (rec_content n) (rec_text n).
Proof.
  induction n as [|n IH]; cbn [rec_content rec_text].
  - apply c_unit_variant; [apply letter_ident; reflexivity|]. cbn. intuition discriminate.
  - apply c_variant; [apply letter_ident; reflexivity|cbn; intuition discriminate|]. now apply ca_one.
Qed.
Lemma rec_converts n f : (2 * n + 1 < f)%nat -> of_content rec_types f (TRef 0) (rec_content n) = CVal (rec_value n).
Proof.
  revert f. induction n as [|n IH]; intros [|[|f]] L; try lia; [reflexivity|].
  cbn [of_content rec_content rec_value]. change (rec_types 0) with (TEnum n_Rec [(n_A, WNew (TRef 0)); (n_B, WUnit)]).
  cbn [content_step find_variant find fst snd]. change (str_eqb n_A n_A) with true. cbv iota beta. unfold cbind. cbn [snd fst].
  now rewrite IH by lia.
Qed.
Lemma rec_least n : least (rec_value n) = (2 * n + 2)%nat.
Proof. induction n as [|n IH]; cbn [rec_value least]; lia. Qed.
(** C54 is false: whatever the limit, untagged enums are read from texts nested
    to any depth *)
Theorem C54_unbounded_refuted o n f : (2 * n + 1 < f)%nat ->
  options_from_str o (de_untagged rec_types f [UNew (TRef 0)]) (rec_text n) = RValue (O, rec_value n).
Proof.
  intros L. rewrite <- (app_nil_r (rec_text n)).
  apply (content_document o 0 (rec_content n) [] [] exts_empty (rec_text n) []).
  - constructor.
  - constructor.
  - apply rec_crepr.
  - left. constructor.
  - destruct (o_limit o); [apply Nat.le_0_l|exact Logic.I].
  - intros s. cbn [first_variant as_variant]. now rewrite rec_converts.
Qed.
(** read directly, the same value always exceeds a limit below its depth *)
Theorem C54_direct_partial tenv o k n f T text : o_limit o = Some k -> (k < 2 * n + 2)%nat ->
  options_from_str o (de_ty tenv f T) text <> RValue (rec_value n).
Proof. intros OL LT H. apply C19_nesting in H as [W _]. rewrite OL, rec_least in W. unfold Inv.within in W. lia. Qed.
(** what does count: sequences, options and maps, unless the map may be a
    variant or a range.  Missing: variants, where it is false. *)
Theorem C54_counted_partial o text x : options_from_str o content_value text = RValue x -> room (counted x) (o_limit o).
Proof.
  intros H. unfold options_from_str, spanned in H. destruct (from_str o content_value text) as [a s'|e s'| |] eqn:F; try discriminate; [|destruct (span_error _ _); discriminate].
  injection H as ->.
  rewrite from_str_eq in F. destruct (parser_new (init_state text)) as [u s1| | |]; try discriminate.
  unfold bind in F. destruct (content_value _) as [v s2| | |] eqn:C; try discriminate. destruct (de_end s2); try discriminate.
  injection F as -> _. destruct (post_content_value _ _ _ C) as [_ P]. exact P.
Qed.
End Nesting.
Print Assumptions C16_no_panic_buffered.
Print Assumptions C17_buffered_terminates.
Print Assumptions C54_unbounded_refuted.
Print Assumptions C54_direct_partial.
Print Assumptions C54_counted_partial.

#[local] Existing Instance Toy.
#[local] Existing Instance toy_xid.
#[local] Existing Instance toy_float.
(** the default limit is 128 *)
Example C54_refuted_ex : o_limit opts_default = Some 128%nat /\
  rec_text 3 = lit "A(A(A(B)))" /\
  options_from_str opts_default (de_untagged rec_types 1000 [UNew (TRef 0)]) (rec_text 300) = RValue (O, rec_value 300) /\
  options_from_str (Opts exts_empty (Some 5%nat)) (de_untagged rec_types 100 [UNew (TRef 0)]) (rec_text 6) = RValue (O, rec_value 6) /\
  exists sp, options_from_str (Opts exts_empty (Some 5%nat)) (de_ty rec_types 100 (TRef 0)) (rec_text 6) = RError EExceededRecursionLimit sp.
Proof.
  split; [reflexivity|]. split; [reflexivity|]. split; [apply C54_unbounded_refuted; apply Nat.ltb_lt; reflexivity|].
  split; [vm_compute; reflexivity|]. eexists. vm_compute. reflexivity.
Qed.
(** [Some([{(a: 1, b: 'x'): A([])}])] counts; the variant does not *)
Example C54_counted_ex : exists x sp,
  options_from_str (Opts exts_empty (Some 7%nat)) content_value (lit "Some([{(a: 1, b: 'x'): A([])}])") = RValue x /\ counted x = 7%nat /\
  options_from_str (Opts exts_empty (Some 6%nat)) content_value (lit "Some([{(a: 1, b: 'x'): A([])}])") = RError EExceededRecursionLimit sp.
Proof. eexists. eexists. split; [vm_compute; reflexivity|]. split; vm_compute; reflexivity. Qed.
