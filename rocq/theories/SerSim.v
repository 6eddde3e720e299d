(** The serializer against a writer that fails: it stops at the failure, and
    what the writer took is a prefix of the whole text.  It never panics. *)
From Coq Require Import String Ascii NArith ZArith Lia Bool List.
From Verif Require Import Base Facts Value Data Parse De Ser Repr SerRepr.
Import ListNotations.
Open Scope list_scope.
Open Scope sm_scope.

Definition cut (c : nat) (s : sst) : sst := sset_cap (Some c) s.
(** the writer failed [c] bytes into [t] *)
Definition stopped (s2 : sst) (out t : str) (c : nat) : Prop :=
  exists b, w_fail s2 = Some b /\ enc (w_out s2) ++ b = enc out ++ firstn c (enc t).
Definition sim {A} (m : SM A) : Prop := forall s c, w_cap s = None -> w_fail s = None ->
  match m s with
  | SOk a s' => w_cap s' = None /\ w_fail s' = None /\ exists t, w_out s' = w_out s ++ t /\
      ((length (enc t) <= c)%nat -> m (cut c s) = SOk a (cut (c - length (enc t)) s')) /\
      ((c < length (enc t))%nat -> exists s2, m (cut c s) = SErr EFmt s2 /\ stopped s2 (w_out s) t c)
  | SErr e s' => w_cap s' = None /\ w_fail s' = None /\ exists t, w_out s' = w_out s ++ t /\
      ((length (enc t) <= c)%nat -> m (cut c s) = SErr e (cut (c - length (enc t)) s')) /\
      ((c < length (enc t))%nat -> exists s2, m (cut c s) = SErr EFmt s2 /\ stopped s2 (w_out s) t c)
  | SPanic => True
  end.
Lemma cut_zero c s : cut (c - length (enc [])) s = cut c s.
Proof. cbn [enc flat_map length]. now rewrite Nat.sub_0_r. Qed.
Lemma sim_ret {A} (a : A) : sim (sret a).
Proof.
  intros s c C F. cbn. split; [auto|]. split; [auto|]. exists []. rewrite app_nil_r. split; [reflexivity|].
  split; [intros _; now rewrite Nat.sub_0_r|cbn; lia].
Qed.
Lemma sim_fail {A} e : sim (@sfail A e).
Proof.
  intros s c C F. cbn. split; [auto|]. split; [auto|]. exists []. rewrite app_nil_r. split; [reflexivity|].
  split; [intros _; now rewrite Nat.sub_0_r|cbn; lia].
Qed.
Lemma sim_panic {A} : sim (fun _ => @SPanic A).
Proof. intros s c C F. exact Logic.I. Qed.
Lemma sim_write t : sim (write t).
Proof.
  intros s c C F. unfold write. rewrite C. cbn. split; [auto|]. split; [auto|]. exists t. split; [reflexivity|]. split; intros L.
  - apply Nat.leb_le in L. rewrite L. reflexivity.
  - apply Nat.leb_gt in L. rewrite L. eexists. split; [reflexivity|]. exists (firstn c (enc t)). cbn. auto.
Qed.
Lemma sim_mod f : (forall s c, f (cut c s) = cut c (f s)) ->
  (forall s, w_out (f s) = w_out s /\ w_cap (f s) = w_cap s /\ w_fail (f s) = w_fail s) -> sim (smod f).
Proof.
  intros H1 H2 s c C F. cbn. destruct (H2 s) as (O & C' & F'). split; [congruence|]. split; [congruence|]. exists [].
  rewrite app_nil_r. split; [exact O|]. split; [|cbn; lia]. intros _. unfold smod. rewrite H1. now rewrite cut_zero.
Qed.
Lemma stopped_app s2 out t1 t2 c : (c < length (enc t1))%nat -> stopped s2 out t1 c -> stopped s2 out (t1 ++ t2) c.
Proof.
  intros L (b & F & EQ). exists b. split; [exact F|]. rewrite EQ, enc_app, firstn_app.
  replace (c - length (enc t1))%nat with 0%nat by lia. now rewrite firstn_O, app_nil_r.
Qed.
Lemma stopped_shift s2 out t1 t2 c : (length (enc t1) <= c)%nat -> stopped s2 (out ++ t1) t2 (c - length (enc t1)) -> stopped s2 out (t1 ++ t2) c.
Proof.
  intros L (b & F & EQ). exists b. split; [exact F|]. rewrite EQ, !enc_app, firstn_app, <- app_assoc. f_equal. f_equal.
  now rewrite firstn_all2.
Qed.
Lemma sim_bind {A B} (m : SM A) (k : A -> SM B) : sim m -> (forall a, sim (k a)) -> sim (sbind m k).
Proof.
  intros H HK s c C F. unfold sbind. specialize (H s c C F). destruct (m s) as [a s'|e s'|]; auto.
  - destruct H as (C' & F' & t & O & H1 & H2). specialize (HK a s' (c - length (enc t))%nat C' F').
    assert (GOAL : forall (r : sout B) (mk : sst -> sout B) s'',
      w_cap s'' = None /\ w_fail s'' = None /\ (exists t2, w_out s'' = w_out s' ++ t2 /\
        ((length (enc t2) <= c - length (enc t))%nat -> k a (cut (c - length (enc t)) s') = mk (cut (c - length (enc t) - length (enc t2)) s'')) /\
        ((c - length (enc t) < length (enc t2))%nat -> exists s2, k a (cut (c - length (enc t)) s') = SErr EFmt s2 /\ stopped s2 (w_out s') t2 (c - length (enc t)))) ->
      w_cap s'' = None /\ w_fail s'' = None /\ (exists t2, w_out s'' = w_out s ++ t2 /\
        ((length (enc t2) <= c)%nat -> match m (cut c s) with SOk a s' => k a s' | SErr e s' => SErr e s' | SPanic => SPanic end = mk (cut (c - length (enc t2)) s'')) /\
        ((c < length (enc t2))%nat -> exists s2, match m (cut c s) with SOk a s' => k a s' | SErr e s' => SErr e s' | SPanic => SPanic end = SErr EFmt s2 /\ stopped s2 (w_out s) t2 c))).
    { intros _ mk s'' (C2 & F2 & t2 & O2 & K1 & K2). split; [exact C2|]. split; [exact F2|]. exists (t ++ t2).
      split; [rewrite O2, O; apply app_assoc_reverse|]. rewrite enc_app, app_length. split; intros L.
      - rewrite H1, K1 by lia. f_equal. f_equal. lia.
      - destruct (Nat.le_gt_cases (length (enc t)) c) as [L1|L1].
        + destruct K2 as (s2 & E2 & S2); [lia|]. rewrite H1 by exact L1. exists s2. split; [exact E2|].
          apply stopped_shift; [exact L1|]. now rewrite <- O.
        + destruct (H2 L1) as (s2 & E2 & S2). rewrite E2. exists s2. split; [reflexivity|]. now apply stopped_app. }
    destruct (k a s') as [b s''|e s''|]; auto.
    + apply (GOAL SPanic (SOk b) s'' HK).
    + apply (GOAL SPanic (SErr e) s'' HK).
  - destruct H as (C' & F' & t & O & H1 & H2). split; [exact C'|]. split; [exact F'|]. exists t. split; [exact O|]. split; intros L.
    + now rewrite H1.
    + destruct (H2 L) as (s2 & E2 & S2). rewrite E2. eauto.
Qed.
Lemma sim_get {B} (k : sst -> SM B) : (forall s c, k (cut c s) = k s) -> (forall s, sim (k s)) -> sim (sbind sget k).
Proof.
  intros H HK s c C F. unfold sbind, sget. rewrite H. now apply HK.
Qed.
Lemma sim_guard {A} (m : SM A) : sim m -> sim (sguard m).
Proof.
  intros H s c C F. unfold sguard. change (s_lim (cut c s)) with (s_lim s). destruct (s_lim s) as [[|l]|]; [apply (sim_fail EExceededRecursionLimit s c C F)| |now apply H].
  specialize (H (sset_lim (Some l) s) c C F). change (sset_lim (Some l) (cut c s)) with (cut c (sset_lim (Some l) s)).
  destruct (m (sset_lim (Some l) s)) as [a s'|e s'|]; auto; destruct H as (C' & F' & t & O & H1 & H2); (split; [exact C'|]); (split; [exact F'|]); exists t; (split; [exact O|]); split; intros L.
  - rewrite H1 by exact L. reflexivity.
  - destruct (H2 L) as (s2 & -> & S2). eauto.
  - rewrite H1 by exact L. reflexivity.
  - destruct (H2 L) as (s2 & -> & S2). eauto.
Qed.
Lemma sim_if {A} (b : bool) (m k : SM A) : sim m -> sim k -> sim (if b then m else k).
Proof. now destruct b. Qed.
Lemma sim_n n t : sim (swrite_n n t).
Proof. induction n as [|n IH]; cbn [swrite_n]; [apply sim_ret|]. apply sim_bind; [apply sim_write|intros; exact IH]. Qed.
Ltac sim_step := lazymatch goal with
  | |- sim (sret _) => apply sim_ret
  | |- sim (sfail _) => apply sim_fail
  | |- sim (fun _ => SPanic) => apply sim_panic
  | |- sim (write _) => apply sim_write
  | |- sim (swrite_n _ _) => apply sim_n
  | |- sim (smod _) => apply sim_mod; [reflexivity|cbn; auto]
  | |- sim (sguard _) => apply sim_guard
  | |- sim (if _ then _ else _) => apply sim_if
  | |- sim (sbind sget _) => apply sim_get; [reflexivity|intros ?]
  | |- sim (sbind _ _) => apply sim_bind; [|intros ?]
  | |- sim (match ?x with _ => _ end) => destruct x
  end.
Ltac sim0 := repeat sim_step; try assumption.

(** the indent counter: [m] takes [i] to [i'] and does not panic *)
Definition steady {A} (m : SM A) (i i' : nat) : Prop := forall s, s_indent s = i ->
  match m s with SOk _ s' => s_indent s' = i' | SErr _ _ => True | SPanic => False end.
Lemma steady_bind {A B} (m : SM A) (k : A -> SM B) i i' i'' :
  steady m i i' -> (forall a, steady (k a) i' i'') -> steady (sbind m k) i i''.
Proof.
  intros H HK s I0. unfold sbind. specialize (H s I0). destruct (m s) as [a s'|e s'|]; auto. apply (HK a s' H).
Qed.
Lemma steady_get {B} (k : sst -> SM B) i i' : (forall s, s_indent s = i -> steady (k s) i i') -> steady (sbind sget k) i i'.
Proof. intros H s I0. unfold sbind, sget. now apply H. Qed.
Lemma steady_ret {A} (a : A) i : steady (sret a) i i.
Proof. intros s I0. exact I0. Qed.
Lemma steady_fail {A} e i i' : steady (@sfail A e) i i'.
Proof. intros s I0. exact Logic.I. Qed.
Lemma steady_write t i : steady (write t) i i.
Proof. intros s I0. unfold write. destruct (w_cap s); [destruct (_ <=? _)%nat|]; auto. Qed.
Lemma steady_mod f i : (forall s, s_indent (f s) = s_indent s) -> steady (smod f) i i.
Proof. intros H s I0. cbn. now rewrite H. Qed.
Lemma steady_guard {A} (m : SM A) i : steady m i i -> steady (sguard m) i i.
Proof.
  intros H s I0. unfold sguard. destruct (s_lim s) as [[|l]|]; [exact Logic.I| |now apply H].
  specialize (H (sset_lim (Some l) s) I0). destruct (m _); auto.
Qed.
Lemma steady_if {A} (b : bool) (m k : SM A) i i' : steady m i i' -> steady k i i' -> steady (if b then m else k) i i'.
Proof. now destruct b. Qed.
Lemma steady_n n t i : steady (swrite_n n t) i i.
Proof. induction n as [|n IH]; cbn [swrite_n]; [apply steady_ret|]. eapply steady_bind; [apply steady_write|intros; exact IH]. Qed.
Ltac steady_step := lazymatch goal with
  | |- steady (sret _) _ _ => apply steady_ret
  | |- steady (sfail _) _ _ => apply steady_fail
  | |- steady (write _) _ _ => apply steady_write
  | |- steady (swrite_n _ _) _ _ => apply steady_n
  | |- steady (smod _) _ _ => apply steady_mod; reflexivity
  | |- steady (sguard _) _ _ => apply steady_guard
  | |- steady (if _ then _ else _) _ _ => apply steady_if
  | |- steady (sbind sget _) _ _ => apply steady_get; intros ? ?
  | |- steady (sbind _ _) ?i ?i => apply (steady_bind _ _ i i i); [|intros ?]
  | |- steady (match ?x with _ => _ end) _ _ => destruct x
  end.
Ltac steady0 := repeat steady_step; try assumption.

Section WithEnv.
Context {E : Env}.
Variable o : opts.
Variable cfg : option pconf.
Definition step (w : bool) : nat := if w then match cfg with Some _ => 1 | None => 0 end else 0.
Lemma st_start i : steady (start_indent cfg) i (step true + i).
Proof.
  unfold start_indent, step. destruct cfg as [p|]; [|apply steady_ret]. apply (steady_bind _ _ i (1 + i)).
  - intros s I0. cbn. now rewrite I0.
  - intros _. steady0.
Qed.
Lemma st_end i : steady (end_indent cfg) (step true + i) i.
Proof.
  unfold end_indent, step. destruct cfg as [p|]; [|apply steady_ret]. apply steady_get. intros s I0. rewrite I0.
  apply (steady_bind _ _ _ (1 + i)); [steady0|]. intros _ s' _. reflexivity.
Qed.
Lemma st_indent i : steady (indent cfg) i i.
Proof. unfold indent. steady0. Qed.
Lemma st_open w len i : steady (open_wide cfg w len) i (step w + i).
Proof.
  unfold open_wide. destruct w; [|apply steady_ret]. apply (steady_bind _ _ i i); [steady0|]. intros _. apply st_start.
Qed.
Lemma st_close w i : steady (close_wide cfg w) (step w + i) i.
Proof. unfold close_wide. destruct w; [apply st_end|apply steady_ret]. Qed.
Lemma st_separator w i : steady (separator cfg w) i i.
Proof. unfold separator. steady0. Qed.
Lemma st_trailing w f i : steady (trailing cfg w f) i i.
Proof. unfold trailing. steady0. Qed.
Lemma st_validate n i : steady (validate_identifier n) i i.
Proof. unfold validate_identifier. steady0. Qed.
Lemma st_ident n i : steady (write_identifier n) i i.
Proof. unfold write_identifier, validate_identifier. steady0. Qed.
Lemma st_int k z i : steady (ser_int cfg k z) i i.
Proof. unfold ser_int. steady0. Qed.
Lemma st_float k b i : steady (ser_float cfg k b) i i.
Proof. unfold ser_float. steady0. Qed.
Lemma st_raw_str p v i : steady (unescaped_or_raw p v) i i.
Proof. unfold unescaped_or_raw. steady0. Qed.
Lemma st_str v i : steady (ser_str cfg v) i i.
Proof. unfold ser_str, escaped_str. steady0. apply st_raw_str. Qed.
Lemma st_bytes v i : steady (ser_bytes cfg v) i i.
Proof. unfold ser_bytes, escaped_byte_str. steady0. apply st_raw_str. Qed.
Lemma st_unit i : steady ser_unit i i.
Proof. unfold ser_unit. steady0. Qed.
Lemma st_drop i : steady drop_compound i i.
Proof. unfold drop_compound. steady0. Qed.
Lemma st_doc i : steady (doc_lines cfg) i i.
Proof.
  unfold doc_lines. apply steady_get. intros s _. destruct (s_meta s) as [[d fs]|]; [|steady0].
  match goal with |- steady (_ ?x) _ _ => generalize x end. intros ls. induction ls as [|l ls IH]; steady0. apply st_indent.
Qed.
#[local] Hint Resolve st_indent st_open st_close st_separator st_trailing st_validate st_ident st_int st_float
  st_raw_str st_str st_bytes st_unit st_drop st_doc : st.
Ltac steadys := steady0; try (solve [auto with st]).
Lemma st_field f k m i : steady m i i -> steady (struct_field cfg f k m) i i.
Proof.
  intros H. unfold struct_field. apply steady_get. intros s _. destruct (match cfg with Some _ => _ | None => _ end) as [X Y].
  assert (SI := st_indent i). assert (SD := st_doc i). assert (SW := st_separator wide_struct i). assert (SN := st_ident k i).
  apply (steady_bind _ _ i i); [steadys|intros _]. apply (steady_bind _ _ i i); [steadys|intros _].
  apply (steady_bind _ _ i i); [apply steady_if; [steadys|destruct cfg; steadys]|intros _].
  apply (steady_bind _ _ i i); [steadys|intros _]. apply (steady_bind _ _ i i); [steadys|intros _].
  apply (steady_bind _ _ i i); [destruct cfg; steadys|intros _]. steadys.
Qed.
Lemma st_num n i : steady (ser_num cfg n) i i.
Proof. unfold ser_num. steadys. Qed.
Lemma st_replay f x i : steady (replay cfg f x) i i.
Proof. unfold replay. steadys. apply st_field, st_num. Qed.
Lemma st_buffered x i : steady (write_buffered cfg x) i i.
Proof. unfold write_buffered. steadys. apply st_num. Qed.
Lemma st_struct_close n f i : steady (struct_close cfg n f) (step (negb (compact_structs cfg)) + i) i.
Proof.
  unfold struct_close. eapply steady_bind; [apply st_trailing|intros _]. eapply steady_bind; [apply st_close|intros _]. steadys.
Qed.
(** the indent while a range compound is open *)
Definition at_range (c : range_state) (i : nat) : nat :=
  match c with RBuf _ _ => i | RFall _ => step (negb (compact_structs cfg)) + i end.
Lemma range_loop rk l : all (fun kv => forall i, steady (ser o cfg (snd kv)) i i) l -> forall c i s, s_indent s = at_range c i ->
  match (fix go (fs : list (str * val)) (c : range_state) : SM range_state :=
           match fs with [] => sret c | (k, v) :: fs' => c' <~ range_field cfg rk c k v (ser o cfg v) ;; go fs' c' end) l c s with
  | SOk c' s' => s_indent s' = at_range c' i | SErr _ _ => True | SPanic => False end.
Proof.
  induction l as [|[k v] l IHl]; intros H c i s I0; [exact I0|]. destruct H as [H1 H2]. cbn [fst snd] in H1.
  assert (RF : match range_field cfg rk c k v (ser o cfg v) s with SOk c' s' => s_indent s' = at_range c' i | SErr _ _ => True | SPanic => False end).
  { destruct c as [a b|f]; cbn [range_field]; cbn [at_range] in I0.
    - assert (FB : match (write [c_lp] ;~
        (if compact_structs cfg then sret tt
         else smod (sset_is_empty (Some false)) ;~ start_indent cfg) ;~
        f <~ replay cfg true a ;;
        f <~ replay cfg f b ;;
        f <~ struct_field cfg f k (ser o cfg v) ;;
        sret (RFall f))%SM s with SOk c' s' => s_indent s' = at_range c' i | SErr _ _ => True | SPanic => False end).
      { assert (G : steady (write [c_lp] ;~
        (if compact_structs cfg then sret tt
         else smod (sset_is_empty (Some false)) ;~ start_indent cfg) ;~
        f <~ replay cfg true a ;;
        f <~ replay cfg f b ;;
        struct_field cfg f k (ser o cfg v))%SM i (step (negb (compact_structs cfg)) + i)).
        { apply (steady_bind _ _ i i); [steadys|intros _].
          apply (steady_bind _ _ i (step (negb (compact_structs cfg)) + i)).
          - destruct (compact_structs cfg); cbn [negb]; [apply steady_ret|]. apply (steady_bind _ _ i i); [steadys|]. intros _. apply st_start.
          - intros _. eapply steady_bind; [apply st_replay|intros f]. eapply steady_bind; [apply st_replay|intros g]. apply st_field, H1. }
        specialize (G s I0). revert G. generalize (if compact_structs cfg then sret tt else smod (sset_is_empty (Some false)) ;~ start_indent cfg). unfold sbind. clear. intros X.
        repeat match goal with |- context [match ?x with SOk _ _ => _ | SErr _ _ => _ | SPanic => _ end] =>
          lazymatch x with context [match _ with SOk _ _ => _ | SErr _ _ => _ | SPanic => _ end] => fail | _ => destruct x; cbn [at_range]; auto end end.
 }
      destruct (as_number v); [|exact FB]. destruct (range_accepts rk a b k); [|exact FB].
      destruct a; exact I0.
    - assert (G := st_field f k (ser o cfg v) _ (H1 _) s I0). unfold sbind. destruct (struct_field _ _ _ _ s) as [? s5| |]; auto. }
  unfold sbind. destruct (range_field cfg rk c k v (ser o cfg v) s) as [c' s'| |]; auto. now apply IHl.
Qed.
Definition d_tuple := step (separate_tuple_members cfg).
Definition d_struct := step (negb (compact_structs cfg)).
Lemma st_tuple_open n i : steady (tuple_open cfg n) i (d_tuple + i).
Proof.
  unfold tuple_open. apply steady_get. intros s0 _. eapply steady_bind; [apply steady_mod; reflexivity|intros _]. apply (steady_bind _ _ i i); [steadys|intros _].
  eapply steady_bind; [apply st_open|intros _]. apply steady_ret.
Qed.
Lemma st_tuple_close n f i : steady (tuple_close cfg n f) (d_tuple + i) i.
Proof.
  unfold tuple_close. eapply steady_bind; [apply st_trailing|intros _]. eapply steady_bind; [apply st_close|intros _]. steadys.
Qed.
Lemma st_tuple_loop l i : all (fun v => forall i, steady (ser o cfg v) i i) l -> forall c, steady
  ((fix go (vs : list val) (c : bool) : SM bool :=
     match vs with [] => sret c | v :: vs' => c' <~ tuple_elem cfg c (ser o cfg v) ;; go vs' c' end) l c) i i.
Proof.
  intros IH. induction l as [|v l IHl]; intros c; [apply steady_ret|].
  destruct IH as [I1 I2]. eapply steady_bind; [|intros c'; apply IHl; auto]. unfold tuple_elem. steadys.
Qed.
Lemma st_struct_loop l i : all (fun kv => forall i, steady (ser o cfg (snd kv)) i i) l -> forall c, steady
  ((fix go (vs : list (str * val)) (c : bool) : SM bool :=
     match vs with [] => sret c | (k, v) :: vs' => c' <~ struct_field cfg c k (ser o cfg v) ;; go vs' c' end) l c) i i.
Proof.
  intros IH. induction l as [|[k v] l IHl]; intros c; [apply steady_ret|].
  destruct IH as [I1 I2]. eapply steady_bind; [|intros c'; apply IHl; auto]. apply st_field, I1.
Qed.
Theorem steady_ser v : forall i, steady (ser o cfg v) i i.
Proof.
  induction v as [v F|v IH|n v IH|l IH|l IH|n l IH|l IH|n l IH|n k v IH|n k l IH|n k l IH] using val_ind'; intros i.
  - destruct v; try contradiction; cbn [ser]; steadys.
    + unfold ser_char. steadys.
    + unfold ser_unit_struct. steadys.
    + unfold ser_none. steadys.
    + unfold ser_unit_variant. steadys.
    + unfold ser_raw. steadys.
  - cbn [ser]. unfold ser_some. steadys; apply IH.
  - cbn [ser]. unfold ser_newtype. steadys; apply IH.
  - cbn [ser]. unfold seq_open, seq_close. eapply steady_bind.
    { eapply steady_bind; [apply steady_mod; reflexivity|intros _]. eapply steady_bind; [apply steady_write|intros _]. apply st_open. }
    intros _. eapply steady_bind.
    { generalize (true, 0%nat). induction l as [|v l IHl]; intros c; [apply steady_ret|].
      destruct IH as [I1 I2]. eapply steady_bind; [|intros c'; apply IHl; auto]. unfold seq_elem. destruct c as [f idx]. steadys.  }
    intros [f idx]. eapply steady_bind; [apply st_trailing|intros _]. eapply steady_bind; [apply st_close|intros _]. steadys.
  - cbn [ser]. eapply steady_bind; [apply st_tuple_open|intros ntv]. eapply steady_bind; [now apply st_tuple_loop|intros f]. apply st_tuple_close.
  - cbn [ser]. eapply steady_bind.
    { unfold tuple_struct_open. apply steady_get. intros s0 _. eapply steady_bind; [|intros _; apply st_tuple_open]. steadys. }
    intros ntv. eapply steady_bind; [now apply st_tuple_loop|intros f]. apply st_tuple_close.
  - cbn [ser]. eapply steady_bind.
    { unfold map_open. eapply steady_bind; [apply steady_mod; reflexivity|intros _]. eapply steady_bind; [apply steady_write|intros _]. apply st_open. }
    intros _. eapply steady_bind.
    { generalize true. induction l as [|[k v] l IHl]; intros c; [apply steady_ret|].
      destruct IH as [[I1 I1'] I2]. eapply steady_bind; [|intros c'; apply IHl; auto]. unfold map_entry. cbn [fst snd] in *. steadys; auto. }
    intros f. unfold map_close. eapply steady_bind; [apply st_trailing|intros _]. eapply steady_bind; [apply st_close|intros _]. steadys.
  - cbn [ser]. destruct (range_kind_of cfg n (length l)) as [rk|].
    + apply (steady_bind _ _ i i); [steadys|intros _]. intros s I0. assert (R := range_loop rk l IH (RBuf None None) i s I0). unfold sbind at 1.
      match type of R with match ?x with _ => _ end => match goal with |- match match ?y with _ => _ end with _ => _ end => change y with x; destruct x as [c s'|e s'|] end end; auto.
      destruct c as [a b|f]; cbn [range_close at_range] in *; [|now apply (st_struct_close false f i s')].
      revert s' R. change (steady (match rk with
      | RKFrom => write_buffered cfg a ;~ write s_dotdot
      | RKTo => write s_dotdot ;~ write_buffered cfg a
      | RKToInclusive => write s_dotdoteq ;~ write_buffered cfg a
      | RKRange => write_buffered cfg a ;~ write s_dotdot ;~ write_buffered cfg b
      | RKInclusive => write_buffered cfg a ;~ write s_dotdoteq ;~ write_buffered cfg b
      end ;~ drop_compound) i i). destruct rk; steadys; apply st_buffered.
    + eapply steady_bind.
      { unfold struct_open. apply steady_get. intros s0 _. eapply steady_bind; [apply steady_mod; reflexivity|intros _].
        apply (steady_bind _ _ i i); [steadys|intros _]. eapply steady_bind; [apply st_open|intros _]. apply steady_ret. }
      intros ntv. eapply steady_bind; [now apply st_struct_loop|intros f]. apply st_struct_close.
  - cbn [ser]. unfold ser_newtype_variant. steadys.
  - cbn [ser]. eapply steady_bind.
    { unfold tuple_variant_open. eapply steady_bind; [apply steady_mod; reflexivity|intros _].
      apply (steady_bind _ _ i i); [steadys|intros _]. apply (steady_bind _ _ i i); [steadys|intros _]. apply (steady_bind _ _ i i); [steadys|intros _].
      eapply steady_bind; [apply st_open|intros _]. apply steady_ret. }
    intros ntv. eapply steady_bind; [now apply st_tuple_loop|intros f]. apply st_tuple_close.
  - cbn [ser]. eapply steady_bind.
    { unfold struct_variant_open. eapply steady_bind; [apply steady_mod; reflexivity|intros _].
      apply (steady_bind _ _ i i); [steadys|intros _]. apply (steady_bind _ _ i i); [steadys|intros _]. apply (steady_bind _ _ i i); [steadys|intros _].
      eapply steady_bind; [apply st_open|intros _]. apply steady_ret. }
    intros ntv. eapply steady_bind; [now apply st_struct_loop|intros f]. apply st_struct_close.
Qed.
Lemma st_headers p ns i : steady (write_headers p ns) i i.
Proof. induction ns as [|n ns IH]; cbn [write_headers]; steadys. Qed.
Lemma steady_new i : steady (ser_new o cfg) i i.
Proof. unfold ser_new. steadys. apply st_headers. Qed.
Lemma sim_start : sim (start_indent cfg).
Proof. unfold start_indent. sim0. Qed.
Lemma sim_indent : sim (indent cfg).
Proof. unfold indent. sim0. Qed.
Lemma sim_end : sim (end_indent cfg).
Proof. unfold end_indent. sim0. Qed.
Lemma sim_open w len : sim (open_wide cfg w len).
Proof. unfold open_wide. sim0. apply sim_start. Qed.
Lemma sim_close w : sim (close_wide cfg w).
Proof. unfold close_wide. sim0. apply sim_end. Qed.
Lemma sim_separator w : sim (separator cfg w).
Proof. unfold separator. sim0. Qed.
Lemma sim_trailing w f : sim (trailing cfg w f).
Proof. unfold trailing. sim0. Qed.
Lemma sim_validate n : sim (validate_identifier n).
Proof. unfold validate_identifier. sim0. Qed.
Lemma sim_ident n : sim (write_identifier n).
Proof. unfold write_identifier, validate_identifier. sim0. Qed.
Lemma sim_int k z : sim (ser_int cfg k z).
Proof. unfold ser_int. sim0. Qed.
Lemma sim_float k b : sim (ser_float cfg k b).
Proof. unfold ser_float. sim0. Qed.
Lemma sim_raw_str p v : sim (unescaped_or_raw p v).
Proof. unfold unescaped_or_raw. sim0. Qed.
Lemma sim_str v : sim (ser_str cfg v).
Proof. unfold ser_str, escaped_str. sim0. apply sim_raw_str. Qed.
Lemma sim_bytes v : sim (ser_bytes cfg v).
Proof. unfold ser_bytes, escaped_byte_str. sim0. apply sim_raw_str. Qed.
Lemma sim_unit : sim ser_unit.
Proof. unfold ser_unit. sim0. Qed.
Lemma sim_drop : sim drop_compound.
Proof. unfold drop_compound. sim0. Qed.
Lemma sim_doc : sim (doc_lines cfg).
Proof.
  unfold doc_lines. apply sim_get; [reflexivity|]. intros s. destruct (s_meta s) as [[d fs]|]; [|sim0].
  match goal with |- sim (_ ?x) => generalize x end. intros ls. induction ls as [|l ls IH]; sim0. apply sim_indent.
Qed.
#[local] Hint Resolve sim_start sim_indent sim_end sim_open sim_close sim_separator sim_trailing sim_validate sim_ident sim_int sim_float
  sim_raw_str sim_str sim_bytes sim_unit sim_drop sim_doc : sim.
Ltac sims := sim0; try (solve [auto with sim]).
Lemma sim_pretty_sep : sim (match cfg with Some p => write (p_separator p) | None => sret tt end).
Proof. sim0. Qed.
Lemma sim_field f k m : sim m -> sim (struct_field cfg f k m).
Proof.
  intros H. unfold struct_field. apply sim_get; [reflexivity|]. intros s.
  assert (D : forall X Y : option pfield, sim
    (smod (sset_meta X) ;~
     (if f then sret tt else separator cfg wide_struct) ;~
     (if compact_structs cfg then sret tt else match cfg with None => sret tt | Some _ => indent cfg ;~ doc_lines cfg end) ;~
     write_identifier k ;~ write [c_colon] ;~ (match cfg with Some p => write (p_separator p) | None => sret tt end) ;~
     sguard m ;~ smod (fun s => sset_meta (meta_leave k (s_meta s) Y) s) ;~ sret false)).
  { intros X Y. assert (SI := sim_indent). assert (SD := sim_doc). apply sim_bind; [sims|intros _]. apply sim_bind; [sims|intros _].
    apply sim_bind; [apply sim_if; [sims|destruct cfg; sims]|intros _].
    apply sim_bind; [sims|intros _]. apply sim_bind; [sims|intros _]. apply sim_bind; [apply sim_pretty_sep|intros _]. sims. }
  destruct (match cfg with Some _ => _ | None => _ end) as [X Y]. apply D.
Qed.
Lemma sim_num n : sim (ser_num cfg n).
Proof. unfold ser_num. sims. Qed.
Lemma sim_replay f x : sim (replay cfg f x).
Proof. unfold replay. sims. apply sim_field, sim_num. Qed.
Lemma sim_buffered x : sim (write_buffered cfg x).
Proof. unfold write_buffered. sims. apply sim_num. Qed.
Lemma sim_range_field rk c k v m : sim m -> sim (range_field cfg rk c k v m).
Proof.
  intros H. destruct c as [a b|f]; cbn [range_field].
  - assert (FB : sim (write [c_lp] ;~
        (if compact_structs cfg then sret tt
         else smod (sset_is_empty (Some false)) ;~ start_indent cfg) ;~
        f <~ replay cfg true a ;;
        f <~ replay cfg f b ;;
        f <~ struct_field cfg f k m ;;
        sret (RFall f))) by (sims; (apply sim_replay || now apply sim_field)).
    destruct (as_number v); [|exact FB]. destruct (range_accepts rk a b k); [|exact FB]. sims.
  - sims. now apply sim_field.
Qed.
Lemma sim_struct_close n f : sim (struct_close cfg n f).
Proof. unfold struct_close. sims. Qed.
Lemma sim_range_close rk c : sim (range_close cfg rk c).
Proof.
  destruct c as [a b|f]; cbn [range_close]; [|apply sim_struct_close]. destruct rk; sims; apply sim_buffered.
Qed.
Theorem sim_ser v : sim (ser o cfg v).
Proof.
  induction v as [v F|v IH|n v IH|l IH|l IH|n l IH|l IH|n l IH|n k v IH|n k l IH|n k l IH] using val_ind'.
  - destruct v; try contradiction; cbn [ser]; sims.
    + unfold ser_char. sims.
    + unfold ser_unit_struct. sims.
    + unfold ser_none. sims.
    + unfold ser_unit_variant. sims.
    + unfold ser_raw. sims.
  - cbn [ser]. unfold ser_some. sims.
  - cbn [ser]. unfold ser_newtype. sims.
  - cbn [ser]. unfold seq_open, seq_close. sims. generalize (true, 0%nat). induction l as [|v l IHl]; intros c; [sims|].
    destruct IH as [I1 I2]. apply sim_bind; [|intros c'; apply IHl; auto]. unfold seq_elem. destruct c as [f idx]. sims.
  - cbn [ser]. unfold tuple_open, tuple_close. sims. generalize true. induction l as [|v l IHl]; intros c; [sims|].
    destruct IH as [I1 I2]. apply sim_bind; [|intros c'; apply IHl; auto]. unfold tuple_elem. sims.
  - cbn [ser]. unfold tuple_struct_open, tuple_open, tuple_close. sims. generalize true. induction l as [|v l IHl]; intros c; [sims|].
    destruct IH as [I1 I2]. apply sim_bind; [|intros c'; apply IHl; auto]. unfold tuple_elem. sims.
  - cbn [ser]. unfold map_open, map_close. sims. generalize true. induction l as [|[k v] l IHl]; intros c; [sims|].
    destruct IH as [[I1 I1'] I2]. apply sim_bind; [|intros c'; apply IHl; auto]. unfold map_entry. sims.
  - cbn [ser]. destruct (range_kind_of cfg n (length l)) as [rk|].
    + apply sim_bind; [sims|]. intros _. apply sim_bind; [|intros c; apply sim_range_close]. generalize (RBuf None None).
      induction l as [|[k v] l IHl]; intros c; [sims|].
      destruct IH as [I1 I2]. apply sim_bind; [now apply sim_range_field|]. intros c'. apply IHl; auto.
    + unfold struct_open. sims; [|apply sim_struct_close]. generalize true. induction l as [|[k v] l IHl]; intros c; [sims|].
      destruct IH as [I1 I2]. apply sim_bind; [|intros c'; apply IHl; auto]. now apply sim_field.
  - cbn [ser]. unfold ser_newtype_variant. sims.
  - cbn [ser]. unfold tuple_variant_open, tuple_close. sims. generalize true. induction l as [|v l IHl]; intros c; [sims|].
    destruct IH as [I1 I2]. apply sim_bind; [|intros c'; apply IHl; auto]. unfold tuple_elem. sims.
  - cbn [ser]. unfold struct_variant_open. sims; [|apply sim_struct_close]. generalize true. induction l as [|[k' v] l IHl]; intros c; [sims|].
    destruct IH as [I1 I2]. apply sim_bind; [|intros c'; apply IHl; auto]. now apply sim_field.
Qed.
Lemma sim_headers p ns : sim (write_headers p ns).
Proof. induction ns as [|n ns IH]; cbn [write_headers]; sims. Qed.
Lemma sim_new : sim (ser_new o cfg).
Proof. unfold ser_new. sims. apply sim_headers. Qed.
End WithEnv.
