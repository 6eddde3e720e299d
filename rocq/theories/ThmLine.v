(** C63: where line breaks can come from in what is written *)
From Coq Require Import String Ascii NArith ZArith Lia Bool List.
From Coq Require Import ZifyBool ZifyNat ZifyN.
From Verif Require Import Base Facts EnvOk Value Data Parse De Ser ShowFacts SerLex Repr ReprFacts SerWp SerRepr Toy.
Import ListNotations.
Open Scope N_scope.
Open Scope list_scope.
Open Scope sm_scope.

(** ** Specification *)
(** no line feed and no carriage return *)
Definition inline_char (c : char) : Prop := c <> 10 /\ c <> 13.
Definition one_line (t : str) : Prop := Forall inline_char t.
(** the characters and raw values in a value are free of line breaks, and if
    strings are not escaped, so are the strings *)
Fixpoint unbroken (escaped : bool) (v : val) : Prop :=
  match v with
  | VChar c => inline_char c
  | VRaw t => one_line t
  | VStr t => escaped = false -> one_line t
  | VBytes b => escaped = false -> forall t, from_utf8 b = Some t -> one_line t
  | VSome v | VNewtype _ v | VNewVariant _ _ v => unbroken escaped v
  | VSeq l | VTuple l | VTupleStruct _ l | VTupVariant _ _ l => all (unbroken escaped) l
  | VMap es => all (fun kv => unbroken escaped (fst kv) /\ unbroken escaped (snd kv)) es
  | VStruct _ fs | VStructVariant _ _ fs => all (fun kv => unbroken escaped (snd kv)) fs
  | VFloat k b => b < 2 ^ f_bits k
  | _ => True
  end.
(** no pretty configuration, or one that is pretty up to depth 0 only, without
    docs, header lines and line breaks in its separator *)
Definition flat_config (o : opts) (cfg : option pconf) : Prop :=
  match cfg with
  | None => True
  | Some p => p_depth_limit p = Some 0%nat /\ p_path_meta p = None /\ one_line (p_separator p) /\
      exts_minus (p_extensions p) (o_exts o) = exts_empty
  end.

(** ** Proof: the serializer as a writer of lines, with the indentation before
    and after *)
Definition ln {A} (i j : nat) (m : SM A) : Prop := forall s, s_indent s = i -> s_meta s = None ->
  match m s with
  | SOk _ s' => s_indent s' = j /\ s_meta s' = None /\ exists t, w_out s' = w_out s ++ t /\ one_line t
  | _ => True
  end.
Ltac nothing := exists []; rewrite app_nil_r; split; [reflexivity|constructor].
Lemma ln_ret {A} i (a : A) : ln i i (sret a).
Proof. intros s H M. cbn. repeat split; auto. nothing. Qed.
Lemma ln_bind {A B} i j k (m : SM A) (f : A -> SM B) : ln i j m -> (forall a, ln j k (f a)) -> ln i k (sbind m f).
Proof.
  intros H HK s I1 M1. unfold sbind. specialize (H s I1 M1). destruct (m s) as [a s'| |]; auto. destruct H as (I2 & M2 & t & W1 & L1).
  specialize (HK a s' I2 M2). destruct (f a s') as [b s''| |]; auto. destruct HK as (I3 & M3 & t' & W2 & L2).
  repeat split; auto. exists (t ++ t'). rewrite W2, W1, app_assoc. split; [reflexivity|]. now apply Forall_app.
Qed.
Lemma ln_write i t : one_line t -> ln i i (write t).
Proof.
  intros L s H M. unfold write. destruct (w_cap s) as [c|]; [destruct (Nat.leb _ c); [|exact Logic.I]|]; cbn; repeat split; eauto.
Qed.
Lemma ln_get i : ln i i sget.
Proof. intros s H M. cbn. repeat split; auto. nothing. Qed.
Lemma ln_mod i f : (forall s, s_indent (f s) = s_indent s) -> (forall s, s_meta s = None -> s_meta (f s) = None) ->
  (forall s, w_out (f s) = w_out s) -> ln i i (smod f).
Proof. intros H1 H2 H3 s H M. cbn. rewrite H1, H3. repeat split; auto. nothing. Qed.
Lemma ln_fail {A} i j e : ln i j (sfail e : SM A).
Proof. intros s H M. exact Logic.I. Qed.
Lemma ln_guard {A} i (m : SM A) : ln i i m -> ln i i (sguard m).
Proof.
  intros H s I1 M1. unfold sguard. destruct (s_lim s) as [[|l]|]; [exact Logic.I| |now apply H].
  specialize (H (sset_lim (Some l) s) I1 M1). destruct (m (sset_lim (Some l) s)) as [a s'|e s'|]; auto.
Qed.
Lemma ln_if {A} i j (b : bool) (m k : SM A) : ln i j m -> ln i j k -> ln i j (if b then m else k).
Proof. now destruct b. Qed.
Lemma ln_n i n t : one_line t -> ln i i (swrite_n n t).
Proof. intros L. induction n as [|n IH]; cbn [swrite_n]; [apply ln_ret|]. eapply ln_bind; [now apply ln_write|intros; exact IH]. Qed.
(** fixed texts *)
Definition inlineb (c : char) : bool := negb (c =? 10) && negb (c =? 13).
Lemma one_lineb t : forallb inlineb t = true -> one_line t.
Proof. intros H. apply Forall_forall. intros c IN. apply (proj1 (forallb_forall _ _) H) in IN. unfold inlineb, inline_char in *. lia. Qed.
Ltac fixed := apply one_lineb; reflexivity.
Ltac ln_step := lazymatch goal with
  | |- ln _ _ (sret _) => apply ln_ret
  | |- ln _ _ (write _) => apply ln_write; try fixed
  | |- ln _ _ sget => apply ln_get
  | |- ln _ _ (sfail _) => apply ln_fail
  | |- ln _ _ (swrite_n _ _) => apply ln_n; try fixed
  | |- ln _ _ (smod _) => apply ln_mod; [reflexivity|intros ? ?; first [reflexivity|assumption]|reflexivity]
  | |- ln _ _ (sguard _) => apply ln_guard
  | |- ln _ _ (if _ then _ else _) => apply ln_if
  | |- ln _ _ (sbind _ _) => eapply ln_bind; [|intros ?]
  end.
Ltac ln := repeat ln_step; try assumption.

Lemma one_line_app a b : one_line a -> one_line b -> one_line (a ++ b).
Proof. intros. now apply Forall_app. Qed.
Lemma digits_line t : forallb is_digit t = true -> one_line t.
Proof. intros H. apply Forall_forall. intros c IN. apply (proj1 (forallb_forall _ _) H) in IN. unfold is_digit, inline_char in *. lia. Qed.
Lemma digit_char_line d : inline_char (digit_char d).
Proof. unfold digit_char, inline_char. destruct (d <? 10) eqn:L; lia. Qed.
Lemma base_digits_line f base : forall n acc, one_line acc -> one_line (digits f base n acc).
Proof.
  induction f as [|f IH]; intros n acc L; cbn [digits]; [exact L|]. assert (one_line (digit_char (n mod base) :: acc)) by (constructor; [apply digit_char_line|exact L]).
  destruct (n <? base); auto.
Qed.
Lemma show_N_line n : one_line (show_N n).
Proof. apply base_digits_line. constructor. Qed.
Lemma show_Z_line z : one_line (show_Z z).
Proof. destruct z; cbn [show_Z]; [fixed|apply show_N_line|constructor; [split; discriminate|apply show_N_line]]. Qed.
Lemma flat_map_line {A} (f : A -> str) l : (forall a, one_line (f a)) -> one_line (flat_map f l).
Proof. intros H. induction l as [|a l IH]; cbn [flat_map]; [constructor|]. now apply one_line_app. Qed.
Lemma byte_escape_line b : one_line (ascii_escape_default b).
Proof.
  unfold ascii_escape_default. destruct (b =? 9); [fixed|]. destruct (b =? 13) eqn:R; [fixed|]. destruct (b =? 10) eqn:N; [fixed|].
  destruct (_ || _); [repeat constructor; try discriminate; lia|]. destruct (_ && _); [repeat constructor; lia|].
  repeat constructor; try discriminate; apply digit_char_line.
Qed.
Lemma repeat_line c n : inline_char c -> one_line (repeat c n).
Proof. intros H. induction n; cbn; constructor; auto. Qed.

Section WithEnv.
Context {E : Env} {X : XidOk E} {FO : FloatOk E}.
Lemma escape_line c : one_line (escape_debug c).
Proof.
  unfold escape_debug. destruct (c =? 0); [fixed|]. destruct (c =? 9); [fixed|]. destruct (c =? 13) eqn:R; [fixed|]. destruct (c =? 10) eqn:N; [fixed|].
  destruct (_ || _); [repeat constructor; try discriminate; lia|]. destruct (_ && _); [repeat constructor; lia|].
  apply one_line_app; [fixed|]. apply one_line_app; [|fixed]. apply base_digits_line. constructor.
Qed.
Lemma name_line n : valid_identifier n = true -> one_line n.
Proof.
  unfold valid_identifier. intros [_ H]%andb_true_iff. apply Forall_forall. intros c IN. apply (proj1 (forallb_forall _ _) H) in IN.
  unfold is_ident_raw_char in IN. split; intros ->; rewrite xid_continue_ascii in IN by lia; discriminate.
Qed.
Lemma show_line k b : b < 2 ^ f_bits k -> one_line (f_show k b).
Proof.
  intros B. destruct (N.lt_total (f_abs k b) (f_inf k)) as [L|[L|L]].
  - destruct (show_finite k b (conj B L)) as (ds & fs & [_ D] & [_ F] & ->). apply one_line_app; [destruct (f_sign k b); fixed|].
    apply one_line_app; [now apply digits_line|]. destruct (f_integral k b); [constructor|]. constructor; [split; discriminate|now apply digits_line].
  - rewrite show_inf by exact L. destruct (f_sign k b); fixed.
  - rewrite show_nan by (unfold f_is_nan; lia). fixed.
Qed.

Variable o : opts.
Variable cfg : option pconf.
Hypothesis FC : flat_config o cfg.
Notation esc := (escape_strings cfg).

Lemma ln_validate i n : ln i i (validate_identifier n).
Proof. unfold validate_identifier. ln. Qed.
Lemma ln_ident i n : ln i i (write_identifier n).
Proof.
  unfold write_identifier, validate_identifier. destruct (valid_identifier n) eqn:V; [|intros s H M; exact Logic.I]. apply name_line in V. ln.
Qed.
Lemma not_within p i : cfg = Some p -> within p (S i) = false.
Proof. intros ->. destruct FC as [D _]. unfold within. now rewrite D. Qed.
Lemma sep_line p : cfg = Some p -> one_line (p_separator p).
Proof. intros ->. apply FC. Qed.
(** the indentation inside of a compound *)
Definition inner (w : pconf -> bool) (i : nat) : nat := match cfg with Some p => if w p then S i else i | None => i end.
Lemma ln_start i : ln i (inner (fun _ => true) i) (start_indent cfg).
Proof.
  unfold start_indent, inner. assert (NW := not_within); assert (SP := sep_line); destruct cfg as [p|]; [|ln]. intros s H M. unfold sbind, smod, sget. cbn [s_indent sset_indent].
  rewrite (NW p _ eq_refl). cbn. rewrite H. repeat split; auto. nothing.
Qed.
Lemma ln_indent i : ln (inner (fun _ => true) i) (inner (fun _ => true) i) (indent cfg).
Proof.
  unfold indent, inner. assert (NW := not_within); assert (SP := sep_line); destruct cfg as [p|]; [|ln]. intros s H M. unfold sbind, sget. rewrite H, (NW p _ eq_refl).
  cbn. repeat split; auto. nothing.
Qed.
Lemma ln_end i : ln (inner (fun _ => true) i) i (end_indent cfg).
Proof.
  unfold end_indent, inner. assert (NW := not_within); assert (SP := sep_line); destruct cfg as [p|]; [|ln]. intros s H M. unfold sbind, sget. rewrite H, (NW p _ eq_refl).
  cbn. repeat split; auto. nothing.
Qed.
Lemma ln_open w b len i : (forall p, cfg = Some p -> b = w p) -> ln i (inner w i) (open_wide cfg b len).
Proof.
  intros H. unfold open_wide, inner. assert (S := ln_start i). unfold inner in S. destruct cfg as [p|].
  - rewrite (H p eq_refl). destruct (w p); [|ln]. eapply ln_bind; [|intros _; exact S]. ln.
  - destruct b; [|ln]. eapply ln_bind; [|intros _; exact S]. ln.
Qed.
Lemma ln_close w b i : (forall p, cfg = Some p -> b = w p) -> ln (inner w i) i (close_wide cfg b).
Proof.
  intros H. unfold close_wide, inner. assert (S := ln_end i). unfold inner in S. destruct cfg as [p|].
  - rewrite (H p eq_refl). destruct (w p); [exact S|ln].
  - destruct b; [exact S|ln].
Qed.
(** the elements are indented only where there is an indentation *)
Lemma ln_indents w b i : (forall p, cfg = Some p -> b = w p) -> ln (inner w i) (inner w i) (if b then indent cfg else sret tt).
Proof.
  intros H. unfold inner. assert (S := ln_indent i). unfold inner in S. destruct cfg as [p|].
  - rewrite (H p eq_refl). destruct (w p); [exact S|ln].
  - destruct b; [exact S|ln].
Qed.
Lemma ln_sep_text i : ln i i (match cfg with Some p => write (p_separator p) | None => sret tt end).
Proof. assert (NW := not_within); assert (SP := sep_line); destruct cfg as [p|]; ln; auto. Qed.
Lemma ln_separator w i : ln (inner w i) (inner w i) (separator cfg w).
Proof.
  unfold separator. eapply ln_bind; [ln|intros _]. unfold inner. assert (NW := not_within); assert (SP := sep_line); destruct cfg as [p|]; [|ln].
  intros s H M. unfold sbind, sget. rewrite H.
  replace (within p _ && w p) with false; [apply ln_write; auto|].
  destruct (w p); [now rewrite (NW p _ eq_refl)|now rewrite andb_false_r].
Qed.
Lemma ln_trailing w f i : ln (inner w i) (inner w i) (trailing cfg w f).
Proof.
  unfold trailing. destruct f; [ln|]. unfold inner. assert (NW := not_within); assert (SP := sep_line); destruct cfg as [p|]; [|ln].
  intros s H M. unfold sbind, sget. rewrite H.
  replace (within p _ && w p) with false; [cbn; repeat split; auto; nothing|].
  destruct (w p); [now rewrite (NW p _ eq_refl)|now rewrite andb_false_r].
Qed.
#[local] Hint Resolve ln_validate ln_ident ln_separator ln_trailing ln_sep_text : ln.
Ltac lnn := ln; try (solve [auto with ln]).
Lemma ln_drop i : ln i i drop_compound.
Proof. unfold drop_compound. ln. Qed.
#[local] Hint Resolve ln_drop : ln.

Lemma ln_int i k z : ln i i (ser_int cfg k z).
Proof. unfold ser_int. ln; [apply show_Z_line|destruct k; fixed]. Qed.
Lemma ln_float i k b : b < 2 ^ f_bits k -> ln i i (ser_float cfg k b).
Proof. intros B. unfold ser_float. ln; [now apply show_line|destruct k; fixed]. Qed.
Lemma ln_raw_str i p v : one_line p -> one_line v -> ln i i (unescaped_or_raw p v).
Proof.
  intros P V. unfold unescaped_or_raw. ln; try (apply one_line_app; [assumption|fixed]);
    change (c_hash :: repeat c_hash (max_hashes 0 0 v)) with (repeat c_hash (S (max_hashes 0 0 v))); apply repeat_line; split; discriminate.
Qed.
Lemma ln_str i v : (esc = false -> one_line v) -> ln i i (ser_str cfg v).
Proof.
  intros H. unfold ser_str. destruct esc; [|apply ln_raw_str; [constructor|auto]].
  unfold escaped_str. ln. apply flat_map_line, escape_line.
Qed.
Lemma ln_escaped_bytes i v : ln i i (escaped_byte_str v).
Proof. unfold escaped_byte_str. ln. apply flat_map_line, byte_escape_line. Qed.
Lemma ln_bytes i v : (esc = false -> forall t, from_utf8 v = Some t -> one_line t) -> ln i i (ser_bytes cfg v).
Proof.
  intros H. unfold ser_bytes. destruct esc; cbn [negb]; [apply ln_escaped_bytes|].
  destruct (from_utf8 v) as [t|] eqn:U; [apply ln_raw_str; [fixed|auto]|apply ln_escaped_bytes].
Qed.
Lemma ln_unit i : ln i i ser_unit.
Proof. unfold ser_unit. ln. Qed.
#[local] Hint Resolve ln_int ln_unit : ln.
Lemma ln_doc i : ln i i (doc_lines cfg).
Proof. intros s H M. unfold doc_lines, sbind, sget. rewrite M. now apply ln_ret. Qed.
Lemma wide_structs p : cfg = Some p -> negb (compact_structs cfg) = wide_struct p.
Proof. now intros ->. Qed.
Lemma wide_seqs p : cfg = Some p -> negb (compact_arrays cfg) = wide_seq p.
Proof. now intros ->. Qed.
Lemma wide_tuples p : cfg = Some p -> separate_tuple_members cfg = wide_tuple p.
Proof. now intros ->. Qed.
Lemma wide_maps p : cfg = Some p -> negb (compact_maps cfg) = wide_map p.
Proof. now intros ->. Qed.
Notation si i := (inner wide_struct i).
Lemma ln_field i f k m : ln (si i) (si i) m -> ln (si i) (si i) (struct_field cfg f k m).
Proof.
  intros L s H M. unfold struct_field. unfold sbind at 1. unfold sget at 1. rewrite M.
  replace (match cfg with Some _ => meta_enter k None | None => (None, None) end) with (@None pfield, @None pfield) by now destruct cfg.
  match goal with |- match ?m s with _ => _ end => enough (LL : ln (si i) (si i) m) by (exact (LL s H M)) end.
  assert (IND := ln_indents wide_struct _ i wide_structs). assert (D := ln_doc (si i)).
  assert (PRE : ln (si i) (si i) (if compact_structs cfg then sret tt else match cfg with None => sret tt | Some _ => indent cfg ;~ doc_lines cfg end)).
  { destruct (compact_structs cfg); [ln|]. cbn [negb] in IND. destruct cfg; [|ln]. eapply ln_bind; [exact IND|intros _; exact D]. }
  eapply ln_bind; [ln|intros _]. eapply ln_bind; [lnn|intros _]. eapply ln_bind; [exact PRE|intros _]. lnn.
Qed.
Lemma ln_num i n : (match n with NInt _ _ => True | NFloat k b => b < 2 ^ f_bits k end) -> ln i i (ser_num cfg n).
Proof. destruct n; cbn; intros H; [apply ln_int|now apply ln_float]. Qed.

(** ranges: the indentation depends on whether the numbers are still buffered *)
Definition num_fine (x : option (str * num)) : Prop :=
  match x with Some (_, NFloat k b) => b < 2 ^ f_bits k | _ => True end.
Definition state_fine (i : nat) (c : range_state) (j : nat) : Prop :=
  match c with RBuf a b => j = i /\ num_fine a /\ num_fine b | RFall _ => j = si i end.
Definition lnp {A} (i : nat) (m : SM A) (P : A -> nat -> Prop) : Prop := forall s, s_indent s = i -> s_meta s = None ->
  match m s with
  | SOk a s' => P a (s_indent s') /\ s_meta s' = None /\ exists t, w_out s' = w_out s ++ t /\ one_line t
  | _ => True
  end.
Lemma lnp_bind {A B} i (m : SM A) (f : A -> SM B) P Q : lnp i m P -> (forall a j, P a j -> lnp j (f a) Q) -> lnp i (sbind m f) Q.
Proof.
  intros H HK s I1 M1. unfold sbind. specialize (H s I1 M1). destruct (m s) as [a s'| |]; auto. destruct H as (I2 & M2 & t & W1 & L1).
  specialize (HK a _ I2 s' eq_refl M2). destruct (f a s') as [b s''| |]; auto. destruct HK as (I3 & M3 & t' & W2 & L2).
  repeat split; auto. exists (t ++ t'). rewrite W2, W1, app_assoc. split; [reflexivity|]. now apply Forall_app.
Qed.
Lemma ln_lnp {A} i j (m : SM A) : ln i j m <-> lnp i m (fun _ j' => j' = j).
Proof. split; intros H s I1 M1; specialize (H s I1 M1); destruct (m s); auto. Qed.
Lemma lnp_ret {A} i (a : A) (P : A -> nat -> Prop) : P a i -> lnp i (sret a) P.
Proof. intros H s I1 M1. cbn. rewrite I1. repeat split; auto. nothing. Qed.
Lemma ln_replay i f x : num_fine x -> ln (si i) (si i) (replay cfg f x).
Proof. destruct x as [[k n]|]; cbn [replay]; [|intros _; ln]. intros H. apply ln_field, ln_num. now destruct n. Qed.
Lemma ln_buffered i x : num_fine x -> ln i i (write_buffered cfg x).
Proof. destruct x as [[k n]|]; cbn [write_buffered]; [|intros _; ln]. intros H. apply ln_num. now destruct n. Qed.
Lemma lnp_range_field i j rk c k v m : (match v with VFloat k b => b < 2 ^ f_bits k | _ => True end) -> ln (si i) (si i) m ->
  state_fine i c j -> lnp j (range_field cfg rk c k v m) (state_fine i).
Proof.
  intros NF L SF. destruct c as [a b|f]; cbn [range_field state_fine] in *.
  - destruct SF as (-> & SA & SB).
    assert (FB : lnp i (write [c_lp] ;~
        (if compact_structs cfg then sret tt
         else smod (sset_is_empty (Some false)) ;~ start_indent cfg) ;~
        f <~ replay cfg true a ;;
        f <~ replay cfg f b ;;
        f <~ struct_field cfg f k m ;;
        sret (RFall f)) (state_fine i)).
    { eapply lnp_bind; [apply ln_lnp; ln|]. intros _ ? ->. eapply lnp_bind with (P := fun _ j => j = si i).
      { apply ln_lnp. assert (S := ln_start i). unfold inner, wide_struct, compact_structs, flag in *. destruct cfg as [p|]; [destruct (p_compact_structs p); cbn [negb]; [apply ln_ret|]|]; (eapply ln_bind; [ln|intros _; exact S]). }
      intros _ ? ->. eapply lnp_bind; [apply ln_lnp; now apply ln_replay|]. intros f ? ->. eapply lnp_bind; [apply ln_lnp; now apply ln_replay|]. intros f' ? ->.
      eapply lnp_bind; [apply ln_lnp; now apply ln_field|]. intros f2 ? ->. apply lnp_ret. reflexivity. }
    destruct (as_number v) as [n|] eqn:AN; [|exact FB]. destruct (range_accepts rk a b k); [|exact FB].
    assert (NO : num_fine (Some (k, n))). { destruct v; inversion AN; subst; cbn in *; auto. }
    apply lnp_ret. destruct a; cbn; auto.
  - subst j. eapply lnp_bind; [apply ln_lnp; now apply ln_field|]. intros f' ? ->. apply lnp_ret. reflexivity.
Qed.
Lemma ln_struct_close i n f : ln (si i) i (struct_close cfg n f).
Proof.
  unfold struct_close. eapply ln_bind; [apply ln_trailing|intros _]. eapply ln_bind; [apply ln_close; exact wide_structs|intros _]. lnn.
Qed.
Lemma ln_range_close i j rk c : state_fine i c j -> ln j i (range_close cfg rk c).
Proof.
  destruct c as [a b|f]; cbn [state_fine range_close]; [intros (-> & SA & SB)|intros ->; apply ln_struct_close].
  destruct rk; lnn; now apply ln_buffered.
Qed.
Notation ti i := (inner wide_tuple i).
Lemma ln_tuple_open i len : ln i (ti i) (tuple_open cfg len).
Proof.
  unfold tuple_open. eapply ln_bind; [ln|intros s]. eapply ln_bind; [ln|intros _]. eapply ln_bind; [ln|intros _].
  eapply ln_bind; [apply ln_open; exact wide_tuples|intros _]. ln.
Qed.
Lemma ln_tuple_close i n f : ln (ti i) i (tuple_close cfg n f).
Proof.
  unfold tuple_close. eapply ln_bind; [apply ln_trailing|intros _]. eapply ln_bind; [apply ln_close; exact wide_tuples|intros _]. lnn.
Qed.
Lemma ln_tuple_elem i f m : ln (ti i) (ti i) m -> ln (ti i) (ti i) (tuple_elem cfg f m).
Proof.
  intros L. unfold tuple_elem. eapply ln_bind; [lnn|intros _]. eapply ln_bind; [apply ln_indents; exact wide_tuples|intros _]. lnn.
Qed.
Lemma ln_tuple_elems i l : all (fun v => forall i, ln i i (ser o cfg v)) l -> forall c, ln (ti i) (ti i)
  ((fix go (vs : list val) (c : bool) : SM bool :=
      match vs with
      | [] => sret c
      | v :: vs' => c' <~ tuple_elem cfg c (ser o cfg v) ;; go vs' c'
      end) l c).
Proof.
  induction l as [|v l IHl]; intros H c; [ln|]. destruct H as [H1 H2]. eapply ln_bind; [apply ln_tuple_elem, H1|intros c'; now apply IHl].
Qed.
Lemma ln_fields i l : all (fun kv : str * val => forall i, ln i i (ser o cfg (snd kv))) l -> forall c, ln (si i) (si i)
  ((fix go (fs : list (str * val)) (c : bool) : SM bool :=
      match fs with
      | [] => sret c
      | (k, v) :: fs' => c' <~ struct_field cfg c k (ser o cfg v) ;; go fs' c'
      end) l c).
Proof.
  induction l as [|[k v] l IHl]; intros H c; [ln|]. destruct H as [H1 H2]. eapply ln_bind; [apply ln_field, H1|intros c'; now apply IHl].
Qed.
Lemma all_mp {A} (P Q : A -> Prop) l : all (fun a => P a -> Q a) l -> all P l -> all Q l.
Proof. induction l as [|a l IH]; cbn; tauto. Qed.
Theorem ln_ser v : unbroken esc v -> forall i, ln i i (ser o cfg v).
Proof.
  induction v as [v F|v IH|n v IH|l IH|l IH|n l IH|l IH|n l IH|n k v IH|n k l IH|n k l IH] using val_ind'; cbn [unbroken]; intros W i.
  - destruct v; try contradiction; cbn [ser]; lnn.
    + destruct b; fixed.
    + now apply ln_float.
    + unfold ser_char. ln. now constructor.
    + now apply ln_str.
    + now apply ln_bytes.
    + unfold ser_unit_struct. lnn.
    + unfold ser_none. ln.
    + unfold ser_unit_variant. lnn.
    + unfold ser_raw. ln.
  - cbn [ser]. unfold ser_some. ln; auto.
  - cbn [ser]. unfold ser_newtype. lnn; auto.
  - cbn [ser]. unfold seq_open, seq_close. apply (all_mp _ _ _ IH) in W. eapply ln_bind; [|intros _].
    { eapply ln_bind; [ln|intros _]. eapply ln_bind; [ln|intros _]. apply ln_open. exact wide_seqs. }
    eapply ln_bind; [|intros c]. 2:{ eapply ln_bind; [apply ln_trailing|intros _]. eapply ln_bind; [apply ln_close; exact wide_seqs|intros _]. lnn. }
    generalize (true, 0%nat). clear IH. induction l as [|v l IHl]; intros c; [ln|]. destruct W as [W1 W2].
    eapply ln_bind; [|intros c'; now apply IHl]. unfold seq_elem. destruct c as [f idx]. eapply ln_bind; [lnn|intros _].
    eapply ln_bind with (j := inner wide_seq i); [|intros _].
    { assert (IND := ln_indents wide_seq _ i wide_seqs). now destruct (compact_arrays cfg). }
    eapply ln_bind with (j := inner wide_seq i); [|intros idx'; lnn; apply W1].
    destruct cfg; ln. apply one_line_app; [fixed|]. apply one_line_app; [apply show_N_line|fixed].
  - cbn [ser]. apply (all_mp _ _ _ IH) in W. eapply ln_bind; [apply ln_tuple_open|intros n]. eapply ln_bind; [now apply ln_tuple_elems|intros f]. apply ln_tuple_close.
  - cbn [ser]. apply (all_mp _ _ _ IH) in W. eapply ln_bind; [|intros m].
    { unfold tuple_struct_open. eapply ln_bind; [ln|intros s]. eapply ln_bind; [lnn|intros _]. apply ln_tuple_open. }
    eapply ln_bind; [now apply ln_tuple_elems|intros f]. apply ln_tuple_close.
  - cbn [ser]. unfold map_open, map_close. eapply ln_bind; [|intros _].
    { eapply ln_bind; [ln|intros _]. eapply ln_bind; [ln|intros _]. apply ln_open. exact wide_maps. }
    eapply ln_bind; [|intros c]. 2:{ eapply ln_bind; [apply ln_trailing|intros _]. eapply ln_bind; [apply ln_close; exact wide_maps|intros _]. lnn. }
    generalize true. induction l as [|[k v] l IHl]; intros c; [ln|]. destruct W as [[W1 W1'] W2], IH as [[I1 I1'] I2]. cbn [fst snd] in *.
    eapply ln_bind; [|intros c'; now apply IHl]. unfold map_entry. eapply ln_bind; [lnn|intros _].
    eapply ln_bind with (j := inner wide_map i); [|intros _].
    { assert (IND := ln_indents wide_map _ i wide_maps). now destruct (compact_maps cfg). }
    eapply ln_bind; [apply ln_guard; auto|intros _]. eapply ln_bind; [ln|intros _]. eapply ln_bind; [apply ln_sep_text|intros _]. lnn; auto.
  - cbn [ser]. destruct (range_kind_of cfg n (length l)) as [rk|].
    + eapply ln_bind; [ln|intros _]. apply ln_lnp. eapply lnp_bind with (P := state_fine i); [|intros c j SO; apply ln_lnp; now apply ln_range_close].
      assert (SO : state_fine i (RBuf None None) i) by (repeat split). revert SO. generalize (RBuf None None). assert (G : forall j c, state_fine i c j -> lnp j ((fix go (fs : list (str * val)) (c : range_state) : SM range_state := match fs with | [] => sret c | (k, v) :: fs' => c' <~ range_field cfg rk c k v (ser o cfg v) ;; go fs' c' end) l c) (state_fine i)); [|intros c SO; now apply G].
      induction l as [|[k v] l IHl]; intros j c SO; [now apply lnp_ret|].
      destruct W as [W1 W2], IH as [I1 I2]. cbn [fst snd] in *. eapply lnp_bind; [apply lnp_range_field; eauto; destruct v; auto|]. intros c' j' SO'. apply IHl; auto.
    + apply (all_mp _ _ _ IH) in W. eapply ln_bind; [|intros m].
      { unfold struct_open. eapply ln_bind; [ln|intros s]. eapply ln_bind; [ln|intros _]. eapply ln_bind; [lnn|intros _].
        eapply ln_bind; [apply ln_open; exact wide_structs|intros _]. ln. }
      eapply ln_bind; [now apply ln_fields|intros f]. apply ln_struct_close.
  - cbn [ser]. unfold ser_newtype_variant. lnn; auto.
  - cbn [ser]. apply (all_mp _ _ _ IH) in W. eapply ln_bind; [|intros m].
    { unfold tuple_variant_open. eapply ln_bind; [ln|intros _]. eapply ln_bind; [lnn|intros _]. eapply ln_bind; [lnn|intros _].
      eapply ln_bind; [ln|intros _]. eapply ln_bind; [apply ln_open; exact wide_tuples|intros _]. ln. }
    eapply ln_bind; [now apply ln_tuple_elems|intros f]. apply ln_tuple_close.
  - cbn [ser]. apply (all_mp _ _ _ IH) in W. eapply ln_bind; [|intros m].
    { unfold struct_variant_open. eapply ln_bind; [ln|intros _]. eapply ln_bind; [lnn|intros _]. eapply ln_bind; [lnn|intros _].
      eapply ln_bind; [ln|intros _]. eapply ln_bind; [apply ln_open; exact wide_structs|intros _]. ln. }
    eapply ln_bind; [now apply ln_fields|intros f]. apply ln_struct_close.
Qed.
Lemma ln_new : ln 0 0 (ser_new o cfg).
Proof.
  unfold ser_new. destruct cfg as [p|]; [|ln]. destruct FC as (_ & _ & _ & EX). rewrite EX. cbn. ln.
Qed.

(** C63: everything is written on one line *)
Theorem C63_one_line v t : unbroken esc v -> to_string o cfg v = inl t -> one_line t.
Proof.
  intros U. assert (L := ln_bind 0 0 0 _ _ ln_new (fun _ => ln_ser v U 0%nat)). unfold to_string, to_writer.
  assert (M : s_meta (ser_init o cfg None) = None) by (cbn; destruct cfg; [apply FC|reflexivity]).
  specialize (L (ser_init o cfg None) eq_refl M). destruct ((ser_new o cfg ;~ ser o cfg v) (ser_init o cfg None)) as [u s| |]; try discriminate.
  intros [= <-]. destruct L as (_ & _ & t & -> & L). exact L.
Qed.
End WithEnv.
Print Assumptions C63_one_line.

(** ** Examples and refutations *)
#[local] Existing Instance Toy.
#[local] Existing Instance toy_xid.
#[local] Existing Instance toy_float.
Definition ex_lines : val := VStruct (lit "S") [(lit "a", VSeq [VStr [10; 97; 13]; VStr []]); (lit "b", VBytes [10; 13])].
Definition ex_flat_conf : option pconf := Some (PConf (Some 0%nat) [10] [32] [32] false false true exts_empty false true false false false None true).
Example C63_ex : flat_config opts_default None /\ unbroken (escape_strings None) ex_lines /\
  to_string opts_default None ex_lines = inl (lit "(a:[""\na\r"",""""],b:b""\n\r"")").
Proof. split; [exact Logic.I|]. split; [cbn; intuition discriminate|vm_compute; reflexivity]. Qed.
Example C63_ex_pretty : flat_config opts_default ex_flat_conf /\ unbroken (escape_strings ex_flat_conf) ex_lines /\
  to_string opts_default ex_flat_conf ex_lines = inl (lit "(a: [""\na\r"", """"], b: b""\n\r"")").
Proof.
  split; [repeat split; repeat constructor; discriminate|]. split; [cbn; intuition discriminate|vm_compute; reflexivity].
Qed.
(** a character is not escaped *)
Theorem C63_char_refuted : exists c t, to_string opts_default None (VChar c) = inl t /\ ~ one_line t.
Proof.
  exists 10, [39; 10; 39]. split; [vm_compute; reflexivity|]. intros L. inversion L as [|? ? _ L2]. inversion L2 as [|? ? [C _]]. congruence.
Qed.
(** docs bring line breaks at every depth *)
Definition ex_doc_flat : option pconf :=
  Some (PConf (Some 0%nat) [10] [32] [32] false false false exts_empty false true false false false
    (Some (PField [] (Some [(lit "a", PField (lit "x") None)]))) false).
Theorem C63_docs_refuted : exists v t, unbroken true v /\ to_string opts_default ex_doc_flat v = inl t /\ ~ one_line t.
Proof.
  exists (VStruct (lit "S") [(lit "a", VUnit)]). eexists. split; [cbn; auto|]. split; [vm_compute; reflexivity|].
  unfold one_line. rewrite Forall_forall. intros L. destruct (L 10) as [C _]; [cbn; tauto|congruence].
Qed.
Print Assumptions C63_char_refuted.
Print Assumptions C63_docs_refuted.
