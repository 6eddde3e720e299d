(** Properties of the serializer: C20, C35, C38, C43 and C49. *)
From Coq Require Import String Ascii NArith ZArith Lia Bool List.
From Verif Require Import Base Facts EnvOk Lit Value Data Parse De Span Ser Toy Layout Attr SerLex Repr Typing Typed SerWp RangeSpec SerRepr SerOk SerSim SerLimit SerMeta ThmTyped.
Import ListNotations.
Open Scope N_scope.
Open Scope list_scope.

Section Proofs.
Context {E : Env}.

(** *** C49: serialization never panics, on any writer *)
Theorem C49_no_panic o cfg cap v : to_writer o cfg cap v <> SPanic.
Proof.
  unfold to_writer. assert (N := steady_bind _ _ 0 0 0 (steady_new o cfg 0) (fun _ => steady_ser o cfg v 0) (ser_init o cfg cap) eq_refl).
  intros H. rewrite H in N. exact N.
Qed.

(** *** C35 *)
Lemma sim_writer o cfg : forall v, sim (sbind (ser_new o cfg) (fun _ => ser o cfg v)).
Proof. intros v. apply sim_bind; [apply sim_new|intros _; apply sim_ser]. Qed.
(** a writer that accepts [cap] bytes: if the text fits, all of it arrives;
    otherwise the result is an I/O error and what arrived is the beginning of
    the text *)
Theorem C35_failing_writer o cfg cap v text : to_string o cfg v = inl text ->
  to_io_writer o cfg cap v =
    if (length (enc text) <=? cap)%nat then (enc text, Some (inl tt)) else (firstn cap (enc text), Some (inr EIo)).
Proof.
  unfold to_string, to_io_writer, to_writer. assert (S := sim_writer o cfg v (ser_init o cfg None) cap eq_refl eq_refl).
  change (cut cap (ser_init o cfg None)) with (ser_init o cfg (Some cap)) in S.
  set (m := sbind _ _) in *. destruct (m (ser_init o cfg None)) as [a s'|e s'|]; try discriminate. intros [= <-].
  destruct S as (C & F & t & O & H1 & H2). cbn in O. rewrite O in *.
  destruct (Nat.leb_spec (length (enc t)) cap) as [L|L].
  - rewrite H1 by exact L. unfold cut. cbn. now rewrite O.
  - destruct (H2 L) as (s2 & -> & b & -> & EQ). cbn in EQ. now rewrite EQ.
Qed.
(** the same when serialization itself fails: the error of serialization is
    reported unless the writer fails before *)
Theorem C35_failing_both o cfg cap v e s : to_writer o cfg None v = SErr e s ->
  to_io_writer o cfg cap v =
    if (length (enc (w_out s)) <=? cap)%nat then (enc (w_out s), Some (inr e)) else (firstn cap (enc (w_out s)), Some (inr EIo)).
Proof.
  unfold to_io_writer, to_writer. assert (S := sim_writer o cfg v (ser_init o cfg None) cap eq_refl eq_refl).
  change (cut cap (ser_init o cfg None)) with (ser_init o cfg (Some cap)) in S.
  set (m := sbind _ _) in *. destruct (m (ser_init o cfg None)) as [a s'|e' s'|]; try discriminate. intros [= <- <-].
  destruct S as (C & F & t & O & H1 & H2). cbn in O. rewrite O in *.
  destruct (Nat.leb_spec (length (enc t)) cap) as [L|L].
  - rewrite H1 by exact L. unfold cut. cbn. rewrite F. now rewrite O.
  - destruct (H2 L) as (s2 & -> & b & -> & EQ). cbn in EQ. now rewrite EQ.
Qed.
(** in every case what arrived is a prefix of what an unlimited writer gets,
    and the result is never success when something is missing *)
Theorem C35_prefix o cfg cap v : exists full rest r,
  fst (to_io_writer o cfg cap v) ++ rest = full /\ snd (to_io_writer o cfg cap v) = Some r /\
  (rest <> [] -> r = inr EIo) /\
  match to_writer o cfg None v with SOk _ s | SErr _ s => full = enc (w_out s) | SPanic => False end.
Proof.
  assert (NP := C49_no_panic o cfg None v). destruct (to_writer o cfg None v) as [a s|e s|] eqn:W; [| |congruence].
  - assert (TS : to_string o cfg v = inl (w_out s)) by (unfold to_string; now rewrite W). rewrite (C35_failing_writer o cfg cap v _ TS).
    exists (enc (w_out s)). destruct (Nat.leb_spec (length (enc (w_out s))) cap) as [L|L].
    + exists [], (inl tt). rewrite app_nil_r. repeat split. congruence.
    + exists (skipn cap (enc (w_out s))), (inr EIo). cbn [fst snd]. rewrite firstn_skipn. repeat split.
  - rewrite (C35_failing_both o cfg cap v _ _ W).
    exists (enc (w_out s)). destruct (Nat.leb_spec (length (enc (w_out s))) cap) as [L|L].
    + exists [], (inr e). rewrite app_nil_r. repeat split. congruence.
    + exists (skipn cap (enc (w_out s))), (inr EIo). cbn [fst snd]. rewrite firstn_skipn. repeat split.
Qed.

(** *** C20

    The limit is exceeded exactly by a value at depth [d] when at most
    [d - n - 1] compounds are closed before it: every compound that closes
    raises the limit by one. *)
Theorem C20_exact o cfg v n : compact_ranges cfg = false -> o_limit o = Some n ->
  match to_string o cfg v with
  | inl _ => forall d c, holds v d c -> (d <= n + c)%nat
  | inr e => e = EExceededRecursionLimit -> exists d c, holds v d c /\ (n + c < d)%nat
  end.
Proof.
  intros NR LM. unfold to_string, to_writer.
  assert (B := bud_skip _ _ (uses v) (bud_new o cfg NR) (fun _ => bud_ser o cfg NR v) (ser_init o cfg None) n LM).
  assert (U := uses_spec v n). destruct (sbind _ _ _) as [a s|e s|].
  - destruct B as (l' & EU & _). now rewrite EU in U.
  - intros ->. now rewrite B in U.
  - discriminate.
Qed.
(** a value at depth [d > n] with no compound closed before it is refused *)
Theorem C20_enforced_partial o cfg v n d : valid_config cfg -> compact_ranges cfg = false -> o_limit o = Some n -> writable v ->
  holds v d 0 -> (n < d)%nat -> to_string o cfg v = inr EExceededRecursionLimit.
Proof.
  intros VC NR LM W H LT. assert (X := C20_exact o cfg v n NR LM). destruct (to_string o cfg v) as [t|e] eqn:TS.
  - specialize (X d 0%nat H). lia.
  - f_equal. revert TS. unfold to_string. assert (NP := C49_no_panic o cfg None v). unfold to_writer in *.
    assert (F := fine_bind _ _ (fine_new o cfg VC) (fun _ => fine_ser o cfg v W) (ser_init o cfg None) eq_refl).
    destruct (sbind (ser_new o cfg) _ _) as [u s'|e' s'|]; [discriminate| |congruence]. destruct F as [-> _]. congruence.
Qed.
(** and nothing else is: a value no deeper than the limit is not refused *)
Theorem C20_no_false_alarm o cfg v n : compact_ranges cfg = false -> o_limit o = Some n ->
  (levels v <= n)%nat -> to_string o cfg v <> inr EExceededRecursionLimit.
Proof.
  intros NR LM H TS. assert (X := C20_exact o cfg v n NR LM). rewrite TS in X. destruct (X eq_refl) as (d & c & HD & LT).
  assert (HL := holds_levels v d c HD). lia.
Qed.
(** the value nested deepest escapes the limit only behind closed compounds *)
Theorem C20_bound o cfg v n text : compact_ranges cfg = false -> o_limit o = Some n -> to_string o cfg v = inl text ->
  exists c, holds v (levels v) c /\ (levels v <= n + c)%nat.
Proof.
  intros NR LM TS. assert (X := C20_exact o cfg v n NR LM). rewrite TS in X. destruct (levels_holds v) as (c & H). exists c. auto.
Qed.

Context {X : XidOk E} {FO : FloatOk E}.
(** *** C43: what was serialized can be deserialized, up to 41 nested values *)
Theorem C43_shallow_partial tenv cfg ty v text :
  valid_config cfg -> ranges_ok (extensions opts_default cfg) cfg false v -> typed tenv float_val ty v -> clash (extensions opts_default cfg) v = false ->
  (levels v <= 41)%nat -> to_string opts_default cfg v = inl text ->
  exists n, forall f, (n <= f)%nat -> options_from_str opts_default (de_ty tenv f ty) text = RValue v.
Proof.
  intros VC NR HT CL LV. apply round_trip_limit; auto. cbn. assert (N := need_levels v). lia.
Qed.

(** *** C38 *)
Theorem C38_docs_by_path o cfg cap v :
  let meta := match cfg with Some p => p_path_meta p | None => None end in
  match to_writer o cfg cap v with
  | SOk _ s =>
      (exists s', sbind (ser_new o cfg) (fun _ => ser_at o cfg meta [] v) (ser_init o cfg cap) = SOk tt s' /\ w_out s' = w_out s) /\
      forall path, doc_at (s_meta s) path = doc_at meta path
  | SErr e s => exists s', sbind (ser_new o cfg) (fun _ => ser_at o cfg meta [] v) (ser_init o cfg cap) = SErr e s' /\ w_out s' = w_out s
  | SPanic => False
  end.
Proof.
  intros meta. assert (NM : cfg = None -> meta = None) by (intros ->; reflexivity).
  assert (R := ref_bind meta [] _ _ _ _ (ref_new cfg meta NM o []) (fun _ => ref_ser cfg meta NM o v []) (ser_init o cfg cap) meta (fun p => eq_refl)).
  change (set_meta meta (ser_init o cfg cap)) with (ser_init o cfg cap) in R. unfold to_writer.
  assert (NP := C49_no_panic o cfg cap v). unfold to_writer in NP.
  destruct (sbind (ser_new o cfg) (fun _ => ser o cfg v) (ser_init o cfg cap)) as [[] s|e s|]; [| |congruence].
  - destruct R as [R B]. split; [|exact B]. rewrite R. eexists. split; reflexivity.
  - rewrite R. eexists. split; reflexivity.
Qed.
(** documentation does not change what is read back *)
Theorem C38_harmless tenv o p meta ty v text :
  valid_config (Some p) -> ranges_ok (exts_or (o_exts o) (p_extensions p)) (Some p) false v -> o_limit o = None ->
  typed tenv float_val ty v -> clash (exts_or (o_exts o) (p_extensions p)) v = false ->
  let p' := PConf (p_depth_limit p) (p_new_line p) (p_indentor p) (p_separator p) (p_struct_names p) (p_separate_tuple_members p)
    (p_enumerate_arrays p) (p_extensions p) (p_compact_arrays p) (p_escape_strings p) (p_compact_structs p) (p_compact_maps p) (p_number_suffixes p) meta (p_compact_ranges p) in
  to_string o (Some p') v = inl text ->
  exists n, forall f, (n <= f)%nat -> options_from_str o (de_ty tenv f ty) text = RValue v.
Proof. intros VC NR LM HT CL p' TS. apply (C10_pretty_round_trip tenv o p' ty v text); auto. Qed.
End Proofs.
Print Assumptions C49_no_panic.
Print Assumptions C35_failing_writer.
Print Assumptions C35_failing_both.
Print Assumptions C35_prefix.
Print Assumptions C20_exact.
Print Assumptions C20_enforced_partial.
Print Assumptions C20_no_false_alarm.
Print Assumptions C20_bound.
Print Assumptions C43_shallow_partial.
Print Assumptions C38_docs_by_path.
Print Assumptions C38_harmless.

(** ** Examples and refutations *)
#[local] Existing Instance Toy.
#[local] Existing Instance toy_xid.
#[local] Existing Instance toy_float.

Definition ex_tuple : val := VTuple [VStr [233; 97]; VInt U8 7].
Definition ex_unescaped : option pconf := Some (PConf None [10] [] [32] false false false exts_empty false false true true false None false).
Example C35_ex : to_string (Opts exts_empty None) ex_unescaped ex_tuple = inl ([c_lp; c_dq; 233; 97; c_dq] ++ lit ", 7)") /\
  to_io_writer (Opts exts_empty None) ex_unescaped 10 ex_tuple = ([40; 34; 195; 169; 97; 34; 44; 32; 55; 41], Some (inl tt)) /\
  to_io_writer (Opts exts_empty None) ex_unescaped 3 ex_tuple = ([40; 34; 195], Some (inr EIo)) /\
  to_io_writer (Opts exts_empty None) ex_unescaped 0 ex_tuple = ([], Some (inr EIo)).
Proof. vm_compute. auto. Qed.
(** a field name that is no identifier *)
Example C35_ex_both : to_io_writer (Opts exts_empty None) None 3 (VStruct (lit "A") [(lit "a", VUnit); (lit "b c", VUnit)]) = (lit "(a:", Some (inr EIo)) /\
  to_io_writer (Opts exts_empty None) None 99 (VStruct (lit "A") [(lit "a", VUnit); (lit "b c", VUnit)]) = (lit "(a:(),", Some (inr (EInvalidIdentifier (lit "b c")))).
Proof. vm_compute. auto. Qed.

(** a limit of 1 refuses [[1]] but not [[],[1]]: closing the first inner
    sequence raised the limit *)
Definition deep_alone : val := VSeq [VSeq [VInt U8 1]].
Definition deep_second : val := VSeq [VSeq []; VSeq [VInt U8 1]].
Example C20_ex : holds deep_alone 2 0 /\ writable deep_alone /\ to_string (Opts exts_empty (Some 1%nat)) None deep_alone = inr EExceededRecursionLimit.
Proof.
  split; [|split; [cbn; auto|reflexivity]].
  apply (holds_in deep_alone [] (VSeq [VInt U8 1]) [] 1 0 0); [reflexivity|constructor|].
  apply (holds_in _ [] (VInt U8 1) [] 0 0 0); [reflexivity|constructor|constructor].
Qed.
Example C20_no_false_alarm_ex : levels deep_second = 2%nat /\ to_string (Opts exts_empty (Some 2%nat)) None deep_second = inl (lit "[[],[1]]").
Proof. vm_compute. auto. Qed.
Theorem C20_limit_refuted : exists o n v text, o_limit o = Some n /\ (n < levels v)%nat /\ to_string o None v = inl text.
Proof. exists (Opts exts_empty (Some 1%nat)), 1%nat, deep_second, (lit "[[],[1]]"). vm_compute. auto. Qed.
(** the leak is unbounded: [n] empty sequences let [n] more levels through *)
Fixpoint nest (n : nat) : val := match n with O => VUnit | S n' => VSeq [nest n'] end.
Theorem C20_unbounded_refuted : exists v text, levels v = 50%nat /\ to_string (Opts exts_empty (Some 1%nat)) None v = inl text.
Proof. exists (VSeq (repeat (VSeq []) 49 ++ [nest 49])). eexists. vm_compute. auto. Qed.

(** 65 nested sequences are written but not read under the default options *)
Fixpoint nest_ty (n : nat) : ty := match n with O => TUnit | S n' => TSeq (nest_ty n') end.
Theorem C43_depth_refuted : exists v ty text, typed no_refs float_val ty v /\ to_string opts_default None v = inl text /\
  exists e sp, options_from_str opts_default (de_ty no_refs 200 ty) text = RError e sp.
Proof.
  exists (nest 65), (nest_ty 65). eexists. split.
  - assert (H : forall n, typed no_refs float_val (nest_ty n) (nest n)) by (induction n; cbn; repeat constructor; auto). apply H.
  - split; [vm_compute; reflexivity|]. vm_compute. eauto.
Qed.
Example C43_ex : levels (nest 41) = 41%nat /\ clash exts_empty (nest 41) = false.
Proof. vm_compute. auto. Qed.

(** docs on a.b only, for both elements of a sequence *)
Definition ex_meta : option pfield := Some (PField [] (Some [(lit "a", PField (lit "A") (Some [(lit "b", PField (lit "B") None)]))])).
Definition ex_doc_conf : pconf := PConf None [10] [32] [32] false false false exts_empty false true false false false ex_meta false.
Definition ex_rec : val := VStruct (lit "S") [(lit "b", VInt U8 0); (lit "a", VTuple [VStruct (lit "T") [(lit "b", VInt U8 1)]; VStruct (lit "T") [(lit "b", VInt U8 2)]])].
Example C38_ex : to_string (Opts exts_empty None) (Some ex_doc_conf) ex_rec = inl (
  lit "(" ++ [10] ++ lit " b: 0," ++ [10] ++ lit " /// A" ++ [10] ++ lit " a: ((" ++ [10] ++
  lit "  /// B" ++ [10] ++ lit "  b: 1," ++ [10] ++ lit " ), (" ++ [10] ++
  lit "  /// B" ++ [10] ++ lit "  b: 2," ++ [10] ++ lit " ))," ++ [10] ++ lit ")").
Proof. vm_compute. reflexivity. Qed.
