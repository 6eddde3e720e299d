(** The recursion limit does not change what is written: where serialization
    succeeds under a limit, it writes the same without one. *)
From Coq Require Import String Ascii NArith ZArith Lia Bool List.
From Verif Require Import Base Facts Value Data Parse De Ser Repr ReprFacts SerWp SerRepr.
Import ListNotations.
Open Scope list_scope.
Open Scope sm_scope.

Definition unlim (s : sst) : sst := sset_lim None s.
Definition bl {A} (m : SM A) : Prop := forall s, match m s with SOk a s' => m (unlim s) = SOk a (unlim s') | _ => True end.
Lemma bl_ret {A} (a : A) : bl (sret a).
Proof. intros s. reflexivity. Qed.
Lemma bl_fail {A} e : bl (sfail e : SM A).
Proof. intros s. exact Logic.I. Qed.
Lemma bl_bind {A B} (m : SM A) (k : A -> SM B) : bl m -> (forall a, bl (k a)) -> bl (sbind m k).
Proof.
  intros H HK s. unfold sbind. specialize (H s). destruct (m s) as [a s'| |]; auto. rewrite H. apply HK.
Qed.
Lemma bl_get {B} (k : sst -> SM B) : (forall s, k (unlim s) = k s) -> (forall s, bl (k s)) -> bl (sbind sget k).
Proof. intros H HK s. unfold sbind, sget. rewrite H. apply HK. Qed.
Lemma bl_write t : bl (write t).
Proof. intros s. unfold write, unlim. destruct (w_cap s) as [c|] eqn:C; cbn; rewrite C; [destruct (Nat.leb _ c); [reflexivity|exact Logic.I]|reflexivity]. Qed.
Lemma bl_mod f : (forall s, f (unlim s) = unlim (f s)) -> bl (smod f).
Proof. intros H s. change (SOk tt (f (unlim s)) = SOk tt (unlim (f s))). now rewrite H. Qed.
Lemma bl_guard {A} (m : SM A) : bl m -> bl (sguard m).
Proof.
  intros H s. unfold sguard at 1. destruct (s_lim s) as [[|l]|] eqn:L; [exact Logic.I| |].
  - specialize (H (sset_lim (Some l) s)). destruct (m (sset_lim (Some l) s)) as [a s'| |]; auto.
  - specialize (H s). destruct (m s) as [a s'| |]; auto.
Qed.
Lemma bl_if {A} (b : bool) (m k : SM A) : bl m -> bl k -> bl (if b then m else k).
Proof. now destruct b. Qed.
Lemma bl_n n t : bl (swrite_n n t).
Proof. induction n as [|n IH]; cbn [swrite_n]; [apply bl_ret|]. apply bl_bind; [apply bl_write|intros; exact IH]. Qed.
Ltac bl_step := lazymatch goal with
  | |- bl (sret _) => apply bl_ret
  | |- bl (sfail _) => apply bl_fail
  | |- bl (write _) => apply bl_write
  | |- bl (swrite_n _ _) => apply bl_n
  | |- bl (smod _) => apply bl_mod; reflexivity
  | |- bl (sguard _) => apply bl_guard
  | |- bl (if _ then _ else _) => apply bl_if
  | |- bl (sbind sget _) => apply bl_get; [reflexivity|intros ?]
  | |- bl (sbind _ _) => apply bl_bind; [|intros ?]
  end.
Ltac bl := repeat bl_step; try assumption.

Section WithEnv.
Context {E : Env}.
Variable o : opts.
Variable cfg : option pconf.
Lemma bl_validate n : bl (validate_identifier n).
Proof. unfold validate_identifier. bl. Qed.
Lemma bl_ident n : bl (write_identifier n).
Proof. unfold write_identifier. bl. apply bl_validate. Qed.
Lemma bl_start : bl (start_indent cfg).
Proof. unfold start_indent. destruct cfg as [p|]; bl. destruct (s_is_empty _) as [[|]|]; bl. Qed.
Lemma bl_indent : bl (indent cfg).
Proof. unfold indent. destruct cfg as [p|]; bl. Qed.
Lemma bl_end : bl (end_indent cfg).
Proof.
  unfold end_indent. destruct cfg as [p|]; bl; [destruct (s_is_empty _) as [[|]|]; bl|].
  destruct (s_indent _); [intros ?; exact Logic.I|bl].
Qed.
Lemma bl_open w len : bl (open_wide cfg w len).
Proof. unfold open_wide. bl. apply bl_start. Qed.
Lemma bl_close w : bl (close_wide cfg w).
Proof. unfold close_wide. bl. apply bl_end. Qed.
Lemma bl_separator w : bl (separator cfg w).
Proof. unfold separator. bl. destruct cfg; bl. Qed.
Lemma bl_trailing w f : bl (trailing cfg w f).
Proof. unfold trailing. bl. destruct cfg; bl. Qed.
Lemma bl_drop : bl drop_compound.
Proof. unfold drop_compound. intros s. reflexivity. Qed.
Lemma bl_int k z : bl (ser_int cfg k z).
Proof. unfold ser_int. bl. Qed.
Lemma bl_float k b : bl (ser_float cfg k b).
Proof. unfold ser_float. bl. Qed.
Lemma bl_raw_str p v : bl (unescaped_or_raw p v).
Proof. unfold unescaped_or_raw. bl. Qed.
Lemma bl_str v : bl (ser_str cfg v).
Proof. unfold ser_str, escaped_str. bl. apply bl_raw_str. Qed.
Lemma bl_bytes v : bl (ser_bytes cfg v).
Proof. unfold ser_bytes, escaped_byte_str. bl. destruct (from_utf8 v); [apply bl_raw_str|bl]. Qed.
Lemma bl_unit : bl ser_unit.
Proof. unfold ser_unit. bl. Qed.
Lemma bl_doc : bl (doc_lines cfg).
Proof.
  unfold doc_lines. bl. destruct (s_meta _) as [[d fs]|]; bl.
  match goal with |- bl (_ ?x) => generalize x end. intros ls. induction ls as [|l ls IH]; bl. apply bl_indent.
Qed.
Lemma bl_pretty_sep : bl (match cfg with Some p => write (p_separator p) | None => sret tt end).
Proof. destruct cfg; bl. Qed.
#[local] Hint Resolve bl_validate bl_ident bl_start bl_indent bl_end bl_open bl_close bl_separator bl_trailing bl_drop bl_int bl_float bl_str bl_bytes bl_unit bl_doc bl_pretty_sep : bl.
Ltac bll := bl; try (solve [auto with bl]).
Lemma bl_field f k m : bl m -> bl (struct_field cfg f k m).
Proof.
  intros H. unfold struct_field. apply bl_get; [reflexivity|]. intros s. destruct (match cfg with Some _ => _ | None => _ end) as [a b].
  assert (FI := bl_indent). assert (FD := bl_doc). bll. destruct cfg; bll.
Qed.
Lemma bl_num n : bl (ser_num cfg n).
Proof. destruct n; cbn; bll. Qed.
Lemma bl_replay f x : bl (replay cfg f x).
Proof. destruct x as [[k n]|]; cbn; [|bll]. apply bl_field, bl_num. Qed.
Lemma bl_buffered x : bl (write_buffered cfg x).
Proof. destruct x as [[k n]|]; cbn; [|bll]. apply bl_num. Qed.
#[local] Hint Resolve bl_field bl_num bl_replay bl_buffered : bl.
Lemma bl_range_field rk c k v m : bl m -> bl (range_field cfg rk c k v m).
Proof.
  intros H. unfold range_field. destruct c as [a b|f]; [|bll]. destruct (as_number v); bll.
Qed.
Lemma bl_struct_close n f : bl (struct_close cfg n f).
Proof. unfold struct_close. bll. Qed.
Lemma bl_range_close rk c : bl (range_close cfg rk c).
Proof. destruct c as [a b|f]; cbn; [|apply bl_struct_close]. destruct rk; bll. Qed.
Theorem bl_ser v : bl (ser o cfg v).
Proof.
  induction v as [v F|v IH|n v IH|l IH|l IH|n l IH|l IH|n l IH|n k v IH|n k l IH|n k l IH] using val_ind'.
  - destruct v; try contradiction; cbn [ser]; bll.
    + unfold ser_char. bll.
    + unfold ser_unit_struct. bll.
    + unfold ser_none. bll.
    + unfold ser_unit_variant. bll.
    + unfold ser_raw. bll.
  - cbn [ser]. unfold ser_some. bll.
  - cbn [ser]. unfold ser_newtype. bll.
  - cbn [ser]. unfold seq_open, seq_close. bll. generalize (true, 0%nat). induction l as [|v l IHl]; intros c; [bll|].
    destruct IH as [I1 I2]. apply bl_bind; [|intros c'; apply IHl; auto]. unfold seq_elem. destruct c as [f idx]. bll. destruct cfg; bll.
  - cbn [ser]. unfold tuple_open, tuple_close. bll. generalize true. induction l as [|v l IHl]; intros c; [bll|].
    destruct IH as [I1 I2]. apply bl_bind; [|intros c'; apply IHl; auto]. unfold tuple_elem. bll.
  - cbn [ser]. unfold tuple_struct_open, tuple_open, tuple_close. bll. generalize true. induction l as [|v l IHl]; intros c; [bll|].
    destruct IH as [I1 I2]. apply bl_bind; [|intros c'; apply IHl; auto]. unfold tuple_elem. bll.
  - cbn [ser]. unfold map_open, map_close. bll. generalize true. induction l as [|[k v] l IHl]; intros c; [bll|].
    destruct IH as [[I1 I1'] I2]. apply bl_bind; [|intros c'; apply IHl; auto]. unfold map_entry. bll.
  - cbn [ser]. destruct (range_kind_of cfg n (length l)) as [rk|].
    + bll; [|apply bl_range_close]. generalize (RBuf None None). induction l as [|[k v] l IHl]; intros c; [bll|].
      destruct IH as [I1 I2]. apply bl_bind; [now apply bl_range_field|intros c'; apply IHl; auto].
    + unfold struct_open. bll; [|apply bl_struct_close]. generalize true. induction l as [|[k v] l IHl]; intros c; [bll|].
      destruct IH as [I1 I2]. apply bl_bind; [|intros c'; apply IHl; auto]. now apply bl_field.
  - cbn [ser]. unfold ser_newtype_variant. bll.
  - cbn [ser]. unfold tuple_variant_open, tuple_close. bll. generalize true. induction l as [|v l IHl]; intros c; [bll|].
    destruct IH as [I1 I2]. apply bl_bind; [|intros c'; apply IHl; auto]. unfold tuple_elem. bll.
  - cbn [ser]. unfold struct_variant_open. bll; [|apply bl_struct_close]. generalize true. induction l as [|[k' v] l IHl]; intros c; [bll|].
    destruct IH as [I1 I2]. apply bl_bind; [|intros c'; apply IHl; auto]. now apply bl_field.
Qed.
Lemma bl_headers p ns : bl (write_headers p ns).
Proof. induction ns as [|n ns IH]; cbn [write_headers]; bll. Qed.
Lemma bl_new : bl (ser_new o cfg).
Proof. unfold ser_new. destruct cfg as [p|]; bll. apply bl_headers. Qed.
End WithEnv.

(** the same text without the limit *)
Theorem blind_to_string {E : Env} o cfg v t : to_string o cfg v = inl t -> to_string (Opts (o_exts o) None) cfg v = inl t.
Proof.
  unfold to_string, to_writer. assert (B := bl_bind _ _ (bl_new o cfg) (fun _ => bl_ser o cfg v) (ser_init o cfg None)).
  change (unlim (ser_init o cfg None)) with (ser_init (Opts (o_exts o) None) cfg None) in B.
  destruct ((ser_new o cfg ;~ ser o cfg v) (ser_init o cfg None)) as [u s| |]; try discriminate. intros [= <-].
  change (ser_new (Opts (o_exts o) None) cfg ;~ ser (Opts (o_exts o) None) cfg v) with (ser_new o cfg ;~ ser o cfg v). now rewrite B.
Qed.
