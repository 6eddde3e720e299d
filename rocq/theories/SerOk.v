(** When serialization succeeds: names are identifiers and integers are of a
    supported width. *)
From Coq Require Import String Ascii NArith ZArith Lia Bool List.
From Verif Require Import Base Facts EnvOk Value Data Parse De Ser SerLex Repr SerWp SerRepr.
Import ListNotations.
Open Scope list_scope.
Open Scope sm_scope.

(** Specification: what [Serialize] needs of names and integers *)
Section Spec.
Context {E : Env}.
Definition good_name (n : str) : Prop := n <> [] /\ Forall (fun c => is_ident_raw_char c = true) n.
Fixpoint writable (v : val) : Prop :=
  match v with
  | VInt k _ => int_supported k = true
  | VUnitStruct n => good_name n
  | VSome v => writable v
  | VNewtype n v => good_name n /\ writable v
  | VSeq l | VTuple l => all writable l
  | VTupleStruct n l => good_name n /\ all writable l
  | VMap es => all (fun kv => writable (fst kv) /\ writable (snd kv)) es
  | VStruct n fs => good_name n /\ all (fun kv => good_name (fst kv) /\ writable (snd kv)) fs
  | VUnitVariant n k => good_name n /\ good_name k
  | VNewVariant n k v => good_name n /\ good_name k /\ writable v
  | VTupVariant n k l => good_name n /\ good_name k /\ all writable l
  | VStructVariant n k fs => good_name n /\ good_name k /\ all (fun kv => good_name (fst kv) /\ writable (snd kv)) fs
  | _ => True
  end.
End Spec.

(** on a writer that does not fail, the only error is that of the recursion
    limit, and without a limit there is none *)
Definition fine {A} (m : SM A) : Prop := forall s, w_cap s = None ->
  match m s with
  | SOk _ s' => w_cap s' = None /\ (s_lim s = None -> s_lim s' = None)
  | SErr e _ => e = EExceededRecursionLimit /\ s_lim s <> None
  | SPanic => True
  end.
Lemma fine_ret {A} (a : A) : fine (sret a).
Proof. intros s C. cbn. auto. Qed.
Lemma fine_bind {A B} (m : SM A) (k : A -> SM B) : fine m -> (forall a, fine (k a)) -> fine (sbind m k).
Proof.
  intros H HK s C. unfold sbind. specialize (H s C). destruct (m s) as [a s'| |]; auto. destruct H as [C' L'].
  specialize (HK a s' C'). destruct (k a s'); intuition.
Qed.
Lemma fine_write t : fine (write t).
Proof. intros s C. unfold write. rewrite C. cbn. auto. Qed.
Lemma fine_get : fine sget.
Proof. intros s C. cbn. auto. Qed.
Lemma fine_mod f : (forall s, w_cap (f s) = w_cap s) -> (forall s, s_lim s = None -> s_lim (f s) = None) -> fine (smod f).
Proof. intros H1 H2 s C. cbn. rewrite H1. auto. Qed.
Lemma fine_guard {A} (m : SM A) : fine m -> fine (sguard m).
Proof.
  intros H s C. unfold sguard. destruct (s_lim s) as [[|l]|] eqn:L; [split; [reflexivity|congruence]| |specialize (H s C); rewrite L in H; apply H].
  specialize (H (sset_lim (Some l) s) C). destruct (m (sset_lim (Some l) s)) as [a s'|e s'|]; auto.
  - destruct H as [C' _]. split; [exact C'|congruence].
  - destruct H as [-> _]. split; [reflexivity|congruence].
Qed.
Lemma fine_if {A} (b : bool) (m k : SM A) : fine m -> fine k -> fine (if b then m else k).
Proof. now destruct b. Qed.
Lemma fine_n n t : fine (swrite_n n t).
Proof. induction n as [|n IH]; cbn [swrite_n]; [apply fine_ret|]. apply fine_bind; [apply fine_write|intros; exact IH]. Qed.
Ltac fine_step := lazymatch goal with
  | |- fine (sret _) => apply fine_ret
  | |- fine (write _) => apply fine_write
  | |- fine sget => apply fine_get
  | |- fine (swrite_n _ _) => apply fine_n
  | |- fine (smod _) => apply fine_mod; [reflexivity|cbn; intros ? L; rewrite ?L; reflexivity || exact L]
  | |- fine (sguard _) => apply fine_guard
  | |- fine (if _ then _ else _) => apply fine_if
  | |- fine (sbind _ _) => apply fine_bind; [|intros ?]
  end.
Ltac fine := repeat fine_step; try assumption.

Section WithEnv.
Context {E : Env}.
Variable o : opts.
Variable cfg : option pconf.
Lemma fine_validate n : good_name n -> fine (validate_identifier n).
Proof.
  intros [NE F]. unfold validate_identifier, valid_identifier.
  replace (forallb is_ident_raw_char n) with true by (symmetry; apply forallb_forall; intros c IN; now apply (proj1 (Forall_forall _ _) F)).
  destruct n; [congruence|]. apply fine_ret.
Qed.
Lemma fine_ident n : good_name n -> fine (write_identifier n).
Proof. intros G. unfold write_identifier. fine. now apply fine_validate. Qed.
Lemma fine_start : fine (start_indent cfg).
Proof. unfold start_indent. destruct cfg as [p|]; fine. destruct (s_is_empty a0) as [[|]|]; fine. Qed.
Lemma fine_indent : fine (indent cfg).
Proof. unfold indent. destruct cfg as [p|]; fine. Qed.
Lemma fine_end : fine (end_indent cfg).
Proof.
  unfold end_indent. destruct cfg as [p|]; fine; [destruct (s_is_empty a) as [[|]|]; fine|].
  destruct (s_indent a); [intros s C; exact Logic.I|fine].
Qed.
Lemma fine_open w len : fine (open_wide cfg w len).
Proof. unfold open_wide. fine. apply fine_start. Qed.
Lemma fine_close w : fine (close_wide cfg w).
Proof. unfold close_wide. fine. apply fine_end. Qed.
Lemma fine_separator w : fine (separator cfg w).
Proof. unfold separator. fine. destruct cfg; fine. Qed.
Lemma fine_trailing w f : fine (trailing cfg w f).
Proof. unfold trailing. fine. destruct cfg; fine. Qed.
Lemma fine_drop : fine drop_compound.
Proof. unfold drop_compound. fine. Qed.
#[local] Hint Resolve fine_validate fine_ident fine_start fine_indent fine_end fine_open fine_close fine_separator fine_trailing fine_drop : fine.
Ltac fin := fine; try (solve [auto with fine]).
Lemma fine_int k z : int_supported k = true -> fine (ser_int cfg k z).
Proof. intros H. unfold ser_int. rewrite H. fin. Qed.
Lemma fine_float k b : fine (ser_float cfg k b).
Proof. unfold ser_float. fin. Qed.
Lemma fine_raw_str p v : fine (unescaped_or_raw p v).
Proof. unfold unescaped_or_raw. fin. Qed.
Lemma fine_str v : fine (ser_str cfg v).
Proof. unfold ser_str, escaped_str. fin. apply fine_raw_str. Qed.
Lemma fine_bytes v : fine (ser_bytes cfg v).
Proof. unfold ser_bytes, escaped_byte_str. fin. destruct (from_utf8 v); [apply fine_raw_str|fin]. Qed.
Lemma fine_unit : fine ser_unit.
Proof. unfold ser_unit. fin. Qed.
Lemma fine_doc : fine (doc_lines cfg).
Proof.
  unfold doc_lines. fin. destruct (s_meta a) as [[d fs]|]; fin.
  match goal with |- fine (_ ?x) => generalize x end. intros ls. induction ls as [|l ls IH]; fin.
Qed.
Lemma fine_pretty_sep : fine (match cfg with Some p => write (p_separator p) | None => sret tt end).
Proof. destruct cfg; fin. Qed.
#[local] Hint Resolve fine_doc fine_pretty_sep : fine.
Lemma fine_field f k m : good_name k -> fine m -> fine (struct_field cfg f k m).
Proof.
  intros G H. unfold struct_field. apply fine_bind; [fin|]. intros s. destruct (match cfg with Some _ => _ | None => _ end) as [a b].
  assert (FI := fine_indent). assert (FD := fine_doc). fin. destruct cfg; fin.
Qed.
Lemma fine_num n : (match n with NInt k _ => int_supported k = true | NFloat _ _ => True end) -> fine (ser_num cfg n).
Proof. destruct n; cbn; intros H; [now apply fine_int|apply fine_float]. Qed.
Definition num_ok (x : option (str * num)) : Prop :=
  match x with None => True | Some (k, n) => good_name k /\ match n with NInt k _ => int_supported k = true | NFloat _ _ => True end end.
Lemma fine_replay f x : num_ok x -> fine (replay cfg f x).
Proof. destruct x as [[k n]|]; cbn; [|intros _; fin]. intros [G H]. apply fine_field; [exact G|now apply fine_num]. Qed.
Lemma fine_buffered x : num_ok x -> fine (write_buffered cfg x).
Proof. destruct x as [[k n]|]; cbn; [|intros _; fin]. intros [G H]. now apply fine_num. Qed.
(** what is buffered can be written *)
Definition state_ok (c : range_state) : Prop := match c with RBuf a b => num_ok a /\ num_ok b | RFall _ => True end.
Definition finep {A} (m : SM A) (P : A -> Prop) : Prop := forall s, w_cap s = None ->
  match m s with
  | SOk a s' => w_cap s' = None /\ (s_lim s = None -> s_lim s' = None) /\ P a
  | SErr e _ => e = EExceededRecursionLimit /\ s_lim s <> None
  | SPanic => True
  end.
Lemma finep_bind {A B} (m : SM A) (k : A -> SM B) P Q : finep m P -> (forall a, P a -> finep (k a) Q) -> finep (sbind m k) Q.
Proof.
  intros H HK s C. unfold sbind. specialize (H s C). destruct (m s) as [a s'| |]; auto. destruct H as (C' & L' & HP).
  specialize (HK a HP s' C'). destruct (k a s'); intuition.
Qed.
Lemma finep_ret {A} (a : A) (P : A -> Prop) : P a -> finep (sret a) P.
Proof. intros H s C. cbn. auto. Qed.
Lemma fine_finep {A} (m : SM A) : fine m <-> finep m (fun _ => True).
Proof. split; intros H s C; specialize (H s C); destruct (m s); intuition. Qed.
Lemma finep_range_field rk c k v m : good_name k -> writable v -> fine m -> state_ok c -> finep (range_field cfg rk c k v m) state_ok.
Proof.
  intros G W H SO. destruct c as [a b|f]; cbn [range_field].
  - destruct SO as [SA SB].
    assert (FB : finep (write [c_lp] ;~
        (if compact_structs cfg then sret tt
         else smod (sset_is_empty (Some false)) ;~ start_indent cfg) ;~
        f <~ replay cfg true a ;;
        f <~ replay cfg f b ;;
        f <~ struct_field cfg f k m ;;
        sret (RFall f)) state_ok).
    { eapply finep_bind; [apply fine_finep; fin|]. intros _ _. eapply finep_bind; [apply fine_finep; fin|]. intros _ _.
      eapply finep_bind; [apply fine_finep; now apply fine_replay|]. intros f _. eapply finep_bind; [apply fine_finep; now apply fine_replay|]. intros f' _.
      eapply finep_bind; [apply fine_finep; now apply fine_field|]. intros f2 _. apply finep_ret. exact Logic.I. }
    destruct (as_number v) as [n|] eqn:AN; [|exact FB]. destruct (range_accepts rk a b k); [|exact FB].
    assert (NO : num_ok (Some (k, n))). { split; [exact G|]. destruct v; inversion AN; subst; cbn in *; auto. }
    apply finep_ret. destruct a; cbn; auto.
  - eapply finep_bind; [apply fine_finep; now apply fine_field|]. intros f' _. apply finep_ret. exact Logic.I.
Qed.
Lemma fine_struct_close n f : fine (struct_close cfg n f).
Proof. unfold struct_close. fin. Qed.
Lemma fine_range_close rk c : state_ok c -> fine (range_close cfg rk c).
Proof.
  destruct c as [a b|f]; cbn; [intros [SA SB]|intros _; apply fine_struct_close].
  destruct rk; fin; now apply fine_buffered.
Qed.
Theorem fine_ser v : writable v -> fine (ser o cfg v).
Proof.
  induction v as [v F|v IH|n v IH|l IH|l IH|n l IH|l IH|n l IH|n k v IH|n k l IH|n k l IH] using val_ind'; cbn [writable]; intros W.
  - destruct v; try contradiction; cbn [ser]; fin.
    + now apply fine_int.
    + apply fine_float.
    + unfold ser_char. fin.
    + apply fine_str.
    + apply fine_bytes.
    + apply fine_unit.
    + unfold ser_unit_struct. fin. apply fine_unit.
    + unfold ser_none. fin.
    + destruct W. unfold ser_unit_variant. fin.
    + unfold ser_raw. fin.
    + apply fine_unit.
  - cbn [ser]. unfold ser_some. fin.
  - cbn [ser]. destruct W. unfold ser_newtype. fin.
  - cbn [ser]. unfold seq_open, seq_close. fin. generalize (true, 0%nat). induction l as [|v l IHl]; intros c; [fin|].
    destruct W as [W1 W2], IH as [I1 I2]. apply fine_bind; [|intros c'; apply IHl; auto]. unfold seq_elem. destruct c as [f idx]. fin. destruct cfg; fin.
  - cbn [ser]. unfold tuple_open, tuple_close. fin. generalize true. induction l as [|v l IHl]; intros c; [fin|].
    destruct W as [W1 W2], IH as [I1 I2]. apply fine_bind; [|intros c'; apply IHl; auto]. unfold tuple_elem. fin.
  - cbn [ser]. destruct W as [G W]. unfold tuple_struct_open, tuple_open, tuple_close. fin. generalize true. induction l as [|v l IHl]; intros c; [fin|].
    destruct W as [W1 W2], IH as [I1 I2]. apply fine_bind; [|intros c'; apply IHl; auto]. unfold tuple_elem. fin.
  - cbn [ser]. unfold map_open, map_close. fin. generalize true. induction l as [|[k v] l IHl]; intros c; [fin|].
    destruct W as [[W1 W1'] W2], IH as [[I1 I1'] I2]. apply fine_bind; [|intros c'; apply IHl; auto]. unfold map_entry. fin.
  - cbn [ser]. destruct W as [G W]. destruct (range_kind_of cfg n (length l)) as [rk|].
    + apply fine_bind; [fin|]. intros _. apply fine_finep. eapply finep_bind with (P := state_ok); [|intros c SO; apply fine_finep; now apply fine_range_close].
      assert (SO : state_ok (RBuf None None)) by (split; exact Logic.I). revert SO. generalize (RBuf None None).
      induction l as [|[k v] l IHl]; intros c SO; [now apply finep_ret|].
      destruct W as [[W1 W1'] W2], IH as [I1 I2]. eapply finep_bind; [apply finep_range_field; auto|]. intros c' SO'. apply IHl; auto.
    + unfold struct_open. fin; [|apply fine_struct_close]. generalize true. induction l as [|[k v] l IHl]; intros c; [fin|].
      destruct W as [[W1 W1'] W2], IH as [I1 I2]. apply fine_bind; [|intros c'; apply IHl; auto]. now apply fine_field; auto.
  - cbn [ser]. destruct W as (G & K & W). unfold ser_newtype_variant. fin.
  - cbn [ser]. destruct W as (G & K & W). unfold tuple_variant_open, tuple_close. fin. generalize true. induction l as [|v l IHl]; intros c; [fin|].
    destruct W as [W1 W2], IH as [I1 I2]. apply fine_bind; [|intros c'; apply IHl; auto]. unfold tuple_elem. fin.
  - cbn [ser]. destruct W as (G & K & W). unfold struct_variant_open. fin; [|apply fine_struct_close]. generalize true. induction l as [|[k' v] l IHl]; intros c; [fin|].
    destruct W as [[W1 W1'] W2], IH as [I1 I2]. apply fine_bind; [|intros c'; apply IHl; auto]. now apply fine_field; auto.
Qed.
Lemma fine_headers p ns : fine (write_headers p ns).
Proof. induction ns as [|n ns IH]; cbn [write_headers]; fin. Qed.
Lemma fine_new : valid_config cfg -> fine (ser_new o cfg).
Proof.
  unfold valid_config, ser_new. destruct cfg as [p|]; [|intros _; fin]. intros (W1 & W2 & W3).
  unfold ws_str in *. rewrite W1, W2, W3. cbn [negb]. apply fine_headers.
Qed.
End WithEnv.
