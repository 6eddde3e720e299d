(** The serializer with two depth limits that agree on the levels it reaches *)
From Coq Require Import String Ascii NArith ZArith Lia Bool List.
From Verif Require Import Base Facts Value Data Parse De Ser Repr ReprFacts SerWp SerRepr SerSim Conf.
Import ListNotations.
Open Scope list_scope.
Open Scope nat_scope.
Open Scope sm_scope.

(** how deep the sequences, tuples, maps and structs of a value are nested *)
Fixpoint levels (v : val) : nat :=
  match v with
  | VSome v | VNewtype _ v | VNewVariant _ _ v => levels v
  | VSeq vs | VTuple vs | VTupleStruct _ vs | VTupVariant _ _ vs => S (fold_right (fun v n => Nat.max (levels v) n) 0 vs)
  | VMap es => S (fold_right (fun e n => Nat.max (Nat.max (levels (fst e)) (levels (snd e))) n) 0 es)
  | VStruct _ fs | VStructVariant _ _ fs => S (fold_right (fun f n => Nat.max (levels (snd f)) n) 0 fs)
  | _ => 0
  end.

Definition tw {A} (i : nat) (f : A -> nat) (m1 m2 : SM A) : Prop := forall s, s_indent s = i ->
  m1 s = m2 s /\ match m2 s with SOk a s' => s_indent s' = f a | _ => True end.
Definition t2 {A} (i j : nat) (m1 m2 : SM A) : Prop := tw i (fun _ => j) m1 m2.
Lemma tw_bind {A B} i (f : A -> nat) (g : B -> nat) m1 m2 k1 k2 : tw i f m1 m2 -> (forall a, tw (f a) g (k1 a) (k2 a)) -> tw i g (sbind m1 k1) (sbind m2 k2).
Proof.
  intros H HK s I0. unfold sbind. destruct (H s I0) as [-> H2]. destruct (m2 s) as [a s'|e s'|]; auto. apply (HK a s' H2).
Qed.
Lemma t2_bind {A B} i j l m1 m2 (k1 k2 : A -> SM B) : t2 i j m1 m2 -> (forall a, t2 j l (k1 a) (k2 a)) -> t2 i l (sbind m1 k1) (sbind m2 k2).
Proof. apply (tw_bind i (fun _ => j) (fun _ => l)). Qed.
Lemma t2_of {A} i j (m1 m2 : SM A) : (forall s, s_indent s = i -> m1 s = m2 s) -> steady m2 i j -> t2 i j m1 m2.
Proof. intros H ST s I0. split; [now apply H|]. specialize (ST s I0). destruct (m2 s); auto. Qed.
Lemma t2_same {A} i j (m : SM A) : steady m i j -> t2 i j m m.
Proof. apply t2_of. reflexivity. Qed.
Lemma t2_get {B} i j (k1 k2 : sst -> SM B) : (forall s, s_indent s = i -> t2 i j (k1 s) (k2 s)) -> t2 i j (sbind sget k1) (sbind sget k2).
Proof. intros H s I0. unfold sbind, sget. now apply H. Qed.
Lemma t2_guard {A} i (m1 m2 : SM A) : t2 i i m1 m2 -> t2 i i (sguard m1) (sguard m2).
Proof.
  intros H s I0. unfold sguard. destruct (s_lim s) as [[|l]|]; [auto| |now apply H].
  destruct (H (sset_lim (Some l) s) I0) as [-> H2]. destruct (m2 _); auto.
Qed.
Lemma t2_if {A} (b : bool) i j (m1 m2 k1 k2 : SM A) : t2 i j m1 m2 -> t2 i j k1 k2 -> t2 i j (if b then m1 else k1) (if b then m2 else k2).
Proof. now destruct b. Qed.

(** the limit alone *)
Definition with_depth (d : option nat) (p : pconf) : pconf :=
  PConf d (p_new_line p) (p_indentor p) (p_separator p) (p_struct_names p) (p_separate_tuple_members p) (p_enumerate_arrays p)
    (p_extensions p) (p_compact_arrays p) (p_escape_strings p) (p_compact_structs p) (p_compact_maps p) (p_number_suffixes p) (p_path_meta p) (p_compact_ranges p).
Lemma set_depth d p : apply_call (SetDepth d) p = with_depth d p.
Proof. now destruct p. Qed.

Section WithEnv.
Context {E : Env}.
Variable o : opts.
Variable p : pconf.
Variable d : option nat.
Variable D : nat.
Hypothesis AG : forall n, n <= D -> within (with_depth d p) n = within p n.
Notation c1 := (Some (with_depth d p)).
Notation c2 := (Some p).
Lemma tw_start i : S i <= D -> t2 i (step c2 true + i) (start_indent c1) (start_indent c2).
Proof.
  intros L. apply t2_of; [|apply st_start]. intros s I0. unfold start_indent, sbind, smod, sget. cbn [s_indent sset_indent]. rewrite I0, AG by lia. reflexivity.
Qed.
Lemma tw_end i : S i <= D -> t2 (step c2 true + i) i (end_indent c1) (end_indent c2).
Proof.
  intros L. apply t2_of; [|apply st_end]. intros s I0. cbn [step] in I0. unfold end_indent, sget, sbind. rewrite I0, AG by lia. reflexivity.
Qed.
Lemma tw_indent i : i <= D -> t2 i i (indent c1) (indent c2).
Proof. intros L. apply t2_of; [|apply st_indent]. intros s I0. unfold indent, sget, sbind. rewrite I0, AG by lia. reflexivity. Qed.
Lemma tw_open w len i : S i <= D -> t2 i (step c2 w + i) (open_wide c1 w len) (open_wide c2 w len).
Proof.
  intros L. destruct w; cbn [open_wide]; [|apply t2_same, steady_ret]. apply (t2_bind i i); [apply t2_same, steady_mod; reflexivity|]. intros _. now apply tw_start.
Qed.
Lemma tw_close w i : S i <= D -> t2 (step c2 w + i) i (close_wide c1 w) (close_wide c2 w).
Proof. intros L. destruct w; cbn [close_wide]; [now apply tw_end|apply t2_same, steady_ret]. Qed.
Lemma tw_separator w i : w (with_depth d p) = w p -> i <= D -> t2 i i (separator c1 w) (separator c2 w).
Proof.
  intros W L. apply (t2_bind i i); [apply t2_same, steady_write|intros _]. apply t2_get. intros s I0. rewrite I0, AG, W by lia. apply t2_same. destruct (_ && _); apply steady_write.
Qed.
Lemma tw_trailing w f i : w (with_depth d p) = w p -> i <= D -> t2 i i (trailing c1 w f) (trailing c2 w f).
Proof.
  intros W L. unfold trailing. destruct f; [apply t2_same, steady_ret|]. apply t2_get. intros s I0. rewrite I0, AG, W by lia. apply t2_same.
  destruct (_ && _); [|apply steady_ret]. apply (steady_bind _ _ i i); [apply steady_write|]. intros _. apply steady_write.
Qed.
Lemma tw_doc i : i <= D -> t2 i i (doc_lines c1) (doc_lines c2).
Proof.
  intros L. apply t2_get. intros s I0. destruct (s_meta s) as [[t fs]|]; [|apply t2_same, steady_ret]. generalize (lines t []).
  induction l as [|x l IH]; [apply t2_same, steady_ret|].
  apply (t2_bind i i); [apply t2_same, steady_write|intros _]. apply (t2_bind i i); [apply t2_same, steady_write|intros _].
  apply (t2_bind i i); [apply t2_same, steady_write|intros _]. apply (t2_bind i i); [now apply tw_indent|intros _]. exact IH.
Qed.
Ltac same := apply t2_same; solve [auto using steady_ret, steady_write, st_ident, st_validate, st_drop, steady_n, steady_fail, steady_if | apply steady_mod; reflexivity | steady0; auto using st_ident, st_validate, st_drop].
Ltac via i := apply (t2_bind i i); [|intros ?].
Lemma tw_field f k m1 m2 i : i <= D -> t2 i i m1 m2 -> t2 i i (struct_field c1 f k m1) (struct_field c2 f k m2).
Proof.
  intros L H. unfold struct_field. apply t2_get. intros s _. destruct (meta_enter k (s_meta s)) as [X Y].
  via i; [same|]. via i; [apply t2_if; [same|now apply tw_separator]|].
  via i; [apply (t2_if (compact_structs c2)); [same|via i; [now apply tw_indent|now apply tw_doc]]|].
  via i; [same|]. via i; [same|]. via i; [apply t2_same, steady_write|]. via i; [now apply t2_guard|]. via i; [same|]. same.
Qed.
Lemma tw_num n i : t2 i i (ser_num c1 n) (ser_num c2 n).
Proof. apply (t2_same i i (ser_num c2 n)), st_num. Qed.
Lemma tw_replay f x i : i <= D -> t2 i i (replay c1 f x) (replay c2 f x).
Proof. intros L. destruct x as [[k n]|]; cbn [replay]; [|same]. apply tw_field; [exact L|apply tw_num]. Qed.
Lemma tw_range_field rk c k v m1 m2 i : S i <= D -> (forall j, j <= S i -> t2 j j m1 m2) ->
  tw (at_range c2 c i) (fun c' => at_range c2 c' i) (range_field c1 rk c k v m1) (range_field c2 rk c k v m2).
Proof.
  intros L H. set (j := step c2 (negb (compact_structs c2)) + i).
  assert (LJ : j <= S i) by (unfold j; destruct (compact_structs c2); cbn; lia).
  assert (FALL : forall f, tw j (fun c' => at_range c2 c' i) (f <~ struct_field c1 f k m1 ;; sret (RFall f)) (f <~ struct_field c2 f k m2 ;; sret (RFall f))).
  { intros f. apply (tw_bind j (fun _ => j)); [apply tw_field; [lia|now apply H]|]. intros a s I0. split; [reflexivity|exact I0]. }
  destruct c as [a b|f]; cbn [range_field at_range]; [|apply FALL].
  match goal with |- tw _ _ (match _ with Some _ => if _ then _ else ?x | None => _ end) (match _ with Some _ => if _ then _ else ?y | None => _ end) =>
    assert (FB : tw i (fun c' => at_range c2 c' i) x y) end.
  { apply (tw_bind i (fun _ => i)); [same|intros _]. apply (tw_bind i (fun _ => j)).
    - unfold j. change (compact_structs c1) with (compact_structs c2). destruct (compact_structs c2); cbn [negb]; [same|]. apply (t2_bind i i); [same|]. intros _. now apply tw_start.
    - intros _. apply (tw_bind j (fun _ => j)); [apply tw_replay; lia|intros f]. apply (tw_bind j (fun _ => j)); [apply tw_replay; lia|intros f2]. apply FALL. }
  destruct (as_number v); [|exact FB]. destruct (range_accepts rk a b k); [|exact FB]. intros s I0. split; [reflexivity|]. destruct a; exact I0.
Qed.
Lemma tw_struct_close n f i : S i <= D -> t2 (step c2 (negb (compact_structs c2)) + i) i (struct_close c1 n f) (struct_close c2 n f).
Proof.
  intros L. set (j := _ + i). assert (LJ : j <= S i) by (unfold j; destruct (compact_structs c2); cbn; lia).
  unfold struct_close. via j; [apply tw_trailing; [reflexivity|lia]|]. apply (t2_bind j i); [now apply tw_close|intros _]. via i; [same|]. same.
Qed.
Lemma tw_tuple_open n i : S i <= D -> t2 i (d_tuple c2 + i) (tuple_open c1 n) (tuple_open c2 n).
Proof.
  intros L. unfold tuple_open. apply t2_get. intros s0 _. via i; [same|]. via i; [same|]. apply (t2_bind i (d_tuple c2 + i)); [now apply tw_open|intros _; same].
Qed.
Lemma tw_tuple_close n f i : S i <= D -> t2 (d_tuple c2 + i) i (tuple_close c1 n f) (tuple_close c2 n f).
Proof.
  intros L. set (j := _ + i). assert (LJ : j <= S i) by (unfold j, d_tuple; destruct (separate_tuple_members c2); cbn; lia).
  unfold tuple_close. via j; [apply tw_trailing; [reflexivity|lia]|]. apply (t2_bind j i); [now apply tw_close|intros _]. via i; [same|]. same.
Qed.
Definition fits (v : val) : Prop := forall i, i + levels v <= D -> t2 i i (ser o c1 v) (ser o c2 v).
Lemma tw_tuple_loop l i : all fits l -> i + fold_right (fun v n => Nat.max (levels v) n) 0 l <= D -> forall c, t2 i i
  ((fix go (vs : list val) (c : bool) : SM bool :=
     match vs with [] => sret c | v :: vs' => c' <~ tuple_elem c1 c (ser o c1 v) ;; go vs' c' end) l c)
  ((fix go (vs : list val) (c : bool) : SM bool :=
     match vs with [] => sret c | v :: vs' => c' <~ tuple_elem c2 c (ser o c2 v) ;; go vs' c' end) l c).
Proof.
  intros IH. induction l as [|v l IHl]; intros L c; [same|]. destruct IH as [I1 I2]. cbn [fold_right] in L.
  via i; [|apply IHl; [auto|lia]]. unfold tuple_elem. via i; [apply t2_if; [same|apply tw_separator; [reflexivity|lia]]|].
  via i; [apply (t2_if (separate_tuple_members c2)); [apply tw_indent; lia|same]|]. via i; [apply t2_guard, I1; lia|]. same.
Qed.
Lemma tw_struct_loop l i : all (fun kv => fits (snd kv)) l -> i + fold_right (fun f n => Nat.max (levels (snd f)) n) 0 l <= D -> forall c, t2 i i
  ((fix go (vs : list (str * val)) (c : bool) : SM bool :=
     match vs with [] => sret c | (k, v) :: vs' => c' <~ struct_field c1 c k (ser o c1 v) ;; go vs' c' end) l c)
  ((fix go (vs : list (str * val)) (c : bool) : SM bool :=
     match vs with [] => sret c | (k, v) :: vs' => c' <~ struct_field c2 c k (ser o c2 v) ;; go vs' c' end) l c).
Proof.
  intros IH. induction l as [|[k v] l IHl]; intros L c; [same|]. destruct IH as [I1 I2]. cbn [fold_right fst snd] in *.
  via i; [|apply IHl; [auto|lia]]. apply tw_field; [lia|apply I1; lia].
Qed.
Theorem tw_ser v : fits v.
Proof.
  induction v as [v F|v IH|n v IH|l IH|l IH|n l IH|l IH|n l IH|n k v IH|n k l IH|n k l IH] using val_ind'; intros i L; cbn [levels] in L.
  - replace (ser o c1 v) with (ser o c2 v) by (destruct v; try contradiction; reflexivity). apply t2_same, steady_ser.
  - cbn [ser]. unfold ser_some. apply (t2_if (x_implicit_some (extensions o c2))).
    + via i; [same|]. via i; [apply t2_guard, IH, L|]. same.
    + via i; [same|]. via i; [same|]. via i; [apply t2_guard, IH, L|]. via i; [same|]. same.
  - cbn [ser]. unfold ser_newtype. apply t2_get. intros s _. apply (t2_if (x_unwrap_newtypes (extensions o c2) || s_nt s)).
    + via i; [same|]. via i; [same|]. apply t2_guard, IH, L.
    + via i; [apply (t2_if (struct_names o c2)); same|]. via i; [same|]. via i; [same|]. via i; [apply t2_guard, IH, L|]. same.
  - cbn [ser]. set (j := step c2 (negb (compact_arrays c2)) + i). assert (LJ : j <= S i) by (unfold j; destruct (compact_arrays c2); cbn; lia).
    apply (t2_bind i j).
    { unfold seq_open. via i; [same|]. via i; [same|]. apply tw_open. lia. }
    intros _. apply (t2_bind j j).
    { generalize (true, 0%nat). assert (LL : j + fold_right (fun v n => Nat.max (levels v) n) 0 l <= D) by lia. clear L. induction l as [|v l IHl]; intros c; [same|].
      destruct IH as [I1 I2]. cbn [fold_right] in LL. via j; [|apply IHl; [auto|lia]]. unfold seq_elem. destruct c as [f idx].
      via j; [apply t2_if; [same|apply tw_separator; [reflexivity|lia]]|]. via j; [apply (t2_if (compact_arrays c2)); [same|apply tw_indent; lia]|].
      via j; [apply t2_get; intros s I0; rewrite I0, AG by lia; apply (t2_if (within p j && p_enumerate_arrays p)); [via j; [same|same]|same]|].
      via j; [apply t2_guard, I1; lia|]. same. }
    intros c. unfold seq_close. via j; [apply tw_trailing; [reflexivity|lia]|]. apply (t2_bind j i); [apply tw_close; lia|intros _]. via i; [same|]. same.
  - cbn [ser]. apply (t2_bind i (d_tuple c2 + i)); [apply tw_tuple_open; lia|intros ntv].
    assert (LJ : d_tuple c2 + i <= S i) by (unfold d_tuple; destruct (separate_tuple_members c2); cbn; lia).
    via (d_tuple c2 + i); [apply tw_tuple_loop; [exact IH|lia]|]. apply tw_tuple_close. lia.
  - cbn [ser]. apply (t2_bind i (d_tuple c2 + i)).
    { unfold tuple_struct_open. apply t2_get. intros s0 _. via i; [apply (t2_if (struct_names o c2 && negb (s_nt s0))); same|]. apply tw_tuple_open. lia. }
    intros ntv. assert (LJ : d_tuple c2 + i <= S i) by (unfold d_tuple; destruct (separate_tuple_members c2); cbn; lia).
    via (d_tuple c2 + i); [apply tw_tuple_loop; [exact IH|lia]|]. apply tw_tuple_close. lia.
  - cbn [ser]. set (j := step c2 (negb (compact_maps c2)) + i). assert (LJ : j <= S i) by (unfold j; destruct (compact_maps c2); cbn; lia).
    apply (t2_bind i j).
    { unfold map_open. via i; [same|]. via i; [same|]. apply tw_open. lia. }
    intros _. apply (t2_bind j j).
    { generalize true. assert (LL : j + fold_right (fun e n => Nat.max (Nat.max (levels (fst e)) (levels (snd e))) n) 0 l <= D) by lia. clear L.
      induction l as [|[k v] l IHl]; intros c; [same|]. destruct IH as [[I1 I1'] I2]. cbn [fold_right fst snd] in *.
      via j; [|apply IHl; [auto|lia]]. unfold map_entry. via j; [apply t2_if; [same|apply tw_separator; [reflexivity|lia]]|].
      via j; [apply (t2_if (compact_maps c2)); [same|apply tw_indent; lia]|]. via j; [apply t2_guard, I1; lia|]. via j; [same|].
      via j; [apply t2_same, steady_write|]. via j; [apply t2_guard, I1'; lia|]. same. }
    intros f. unfold map_close. via j; [apply tw_trailing; [reflexivity|lia]|]. apply (t2_bind j i); [apply tw_close; lia|intros _]. via i; [same|]. same.
  - cbn [ser]. change (range_kind_of c1 n (length l)) with (range_kind_of c2 n (length l)). destruct (range_kind_of c2 n (length l)) as [rk|].
    + via i; [same|]. apply (tw_bind i (fun c => at_range c2 c i)).
      * change i with (at_range c2 (RBuf None None) i) at 1. generalize (RBuf None None). assert (LL : S i + fold_right (fun f n => Nat.max (levels (snd f)) n) 0 l <= D) by lia. clear L.
        induction l as [|[k v] l IHl]; intros c; [intros s I0; split; [reflexivity|exact I0]|]. destruct IH as [I1 I2]. cbn [fold_right fst snd] in *.
        apply (tw_bind _ (fun c' => at_range c2 c' i)); [|intros c'; apply IHl; [auto|lia]]. apply tw_range_field; [lia|]. intros j LJ. apply I1. lia.
      * intros [x y|f]; cbn [range_close at_range]; [|apply tw_struct_close; lia].
        via i; [|same]. apply (t2_same i i (match rk with
        | RKFrom => write_buffered c2 x ;~ write s_dotdot
        | RKTo => write s_dotdot ;~ write_buffered c2 x
        | RKToInclusive => write s_dotdoteq ;~ write_buffered c2 x
        | RKRange => write_buffered c2 x ;~ write s_dotdot ;~ write_buffered c2 y
        | RKInclusive => write_buffered c2 x ;~ write s_dotdoteq ;~ write_buffered c2 y
        end)). destruct rk; steady0; apply st_buffered.
    + apply (t2_bind i (d_struct c2 + i)).
      { unfold struct_open. apply t2_get. intros s0 _. via i; [same|]. via i; [apply t2_if; [same|via i; [apply (t2_if (struct_names o c2)); same|same]]|].
        apply (t2_bind i (d_struct c2 + i)); [apply tw_open; lia|intros _; same]. }
      intros ntv. assert (LJ : d_struct c2 + i <= S i) by (unfold d_struct; destruct (compact_structs c2); cbn; lia).
      via (d_struct c2 + i); [apply tw_struct_loop; [exact IH|lia]|]. apply tw_struct_close. lia.
  - cbn [ser]. unfold ser_newtype_variant. via i; [same|]. via i; [same|]. via i; [same|]. via i; [same|]. via i; [apply t2_guard, IH, L|]. via i; [same|]. same.
  - cbn [ser]. apply (t2_bind i (d_tuple c2 + i)).
    { unfold tuple_variant_open. via i; [same|]. via i; [same|]. via i; [same|]. via i; [same|]. apply (t2_bind i (d_tuple c2 + i)); [apply tw_open; lia|intros _; same]. }
    intros ntv. assert (LJ : d_tuple c2 + i <= S i) by (unfold d_tuple; destruct (separate_tuple_members c2); cbn; lia).
    via (d_tuple c2 + i); [apply tw_tuple_loop; [exact IH|lia]|]. apply tw_tuple_close. lia.
  - cbn [ser]. apply (t2_bind i (d_struct c2 + i)).
    { unfold struct_variant_open. via i; [same|]. via i; [same|]. via i; [same|]. via i; [same|]. apply (t2_bind i (d_struct c2 + i)); [apply tw_open; lia|intros _; same]. }
    intros ntv. assert (LJ : d_struct c2 + i <= S i) by (unfold d_struct; destruct (compact_structs c2); cbn; lia).
    via (d_struct c2 + i); [apply tw_struct_loop; [exact IH|lia]|]. apply tw_struct_close. lia.
Qed.
End WithEnv.
