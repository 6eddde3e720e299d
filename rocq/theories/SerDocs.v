(** The serializer with two path_meta trees that hold the same docs *)
From Coq Require Import String Ascii NArith ZArith Lia Bool List.
From Verif Require Import Base Facts Value Data Parse De Ser Repr ReprFacts SerWp SerRepr.
Import ListNotations.
Open Scope list_scope.
Open Scope sm_scope.

(** the doc at a path, empty if there is none *)
Fixpoint doc_at (m : option pfield) (p : list str) {struct p} : str :=
  match m, p with
  | None, _ => []
  | Some (PField d _), [] => d
  | Some (PField _ None), _ => []
  | Some (PField _ (Some l)), k :: p => doc_at (assoc k l) p
  end.
Definition den (m : option pfield) (x : list str -> str) : Prop := forall p, doc_at m p = x p.
Lemma doc_none p : doc_at None p = [].
Proof. now destruct p. Qed.

Definition twin (x : list str -> str) (s1 s2 : sst) : Prop := s2 = sset_meta (s_meta s2) s1 /\ den (s_meta s1) x /\ den (s_meta s2) x.
Definition sdp {A} (x y : list str -> str) (m1 m2 : SM A) : Prop := forall s1 s2, twin x s1 s2 ->
  match m1 s1, m2 s2 with
  | SOk a1 s1', SOk a2 s2' => a1 = a2 /\ twin y s1' s2'
  | SErr e1 _, SErr e2 _ => e1 = e2
  | SPanic, SPanic => True
  | _, _ => False
  end.
Definition sd {A} (m : SM A) : Prop := forall x, sdp x x m m.
Lemma sdp_bind {A B} x y z (m1 m2 : SM A) (k1 k2 : A -> SM B) : sdp x y m1 m2 -> (forall a, sdp y z (k1 a) (k2 a)) -> sdp x z (sbind m1 k1) (sbind m2 k2).
Proof.
  intros H HK s1 s2 T. unfold sbind. specialize (H s1 s2 T). destruct (m1 s1) as [a1 t1| |], (m2 s2) as [a2 t2| |]; try contradiction; auto.
  destruct H as [-> T']. apply HK, T'.
Qed.
Lemma sdp_get {B} x y (k1 k2 : sst -> SM B) : (forall s1 s2, twin x s1 s2 -> sdp x y (k1 s1) (k2 s2)) -> sdp x y (sbind sget k1) (sbind sget k2).
Proof. intros H s1 s2 T. exact (H s1 s2 T s1 s2 T). Qed.
Lemma sd_ret {A} (a : A) : sd (sret a).
Proof. intros x s1 s2 T. cbn. auto. Qed.
Lemma sd_fail {A} e : sd (sfail e : SM A).
Proof. intros x s1 s2 T. reflexivity. Qed.
Lemma sd_bind {A B} (m : SM A) (k : A -> SM B) : sd m -> (forall a, sd (k a)) -> sd (sbind m k).
Proof. intros H HK x. eapply sdp_bind; [apply H|intros a; apply HK]. Qed.
Lemma sd_get {B} (k : sst -> SM B) : (forall s m, k (sset_meta m s) = k s) -> (forall s, sd (k s)) -> sd (sbind sget k).
Proof. intros H HK x. apply sdp_get. intros s1 s2 (E2 & _). rewrite E2, H. apply HK. Qed.
Lemma sd_write t : sd (write t).
Proof.
  intros x s1 s2 (E2 & D1 & D2). rewrite E2. unfold write. cbn [w_cap sset_meta]. destruct (w_cap s1) as [c|]; [destruct (Nat.leb _ c); [|reflexivity]|];
  (split; [reflexivity|]); repeat split; auto.
Qed.
Lemma sd_mod f : (forall s m, f (sset_meta m s) = sset_meta m (f s)) -> (forall s, s_meta (f s) = s_meta s) -> sd (smod f).
Proof.
  intros H1 H2 x s1 s2 (E2 & D1 & D2). cbn. split; [reflexivity|]. unfold twin. rewrite !H2. repeat split; auto. rewrite E2 at 1. apply H1.
Qed.
Lemma sd_guard {A} (m : SM A) : sd m -> sd (sguard m).
Proof.
  intros H x s1 s2 (E2 & D1 & D2). unfold sguard. replace (s_lim s2) with (s_lim s1) by (rewrite E2; reflexivity).
  destruct (s_lim s1) as [[|l]|] eqn:L; [reflexivity| |apply H; repeat split; auto].
  assert (T : twin x (sset_lim (Some l) s1) (sset_lim (Some l) s2)) by (repeat split; auto; rewrite E2 at 1; reflexivity).
  specialize (H x _ _ T). destruct (m (sset_lim (Some l) s1)) as [a1 t1| |], (m (sset_lim (Some l) s2)) as [a2 t2| |]; try contradiction; auto.
  destruct H as [-> (E & F1 & F2)]. split; [reflexivity|]. repeat split; auto. rewrite E. reflexivity.
Qed.
Lemma sd_if {A} (b : bool) (m k : SM A) : sd m -> sd k -> sd (if b then m else k).
Proof. now destruct b. Qed.
Lemma sd_n n t : sd (swrite_n n t).
Proof. induction n as [|n IH]; cbn [swrite_n]; [apply sd_ret|]. apply sd_bind; [apply sd_write|intros; exact IH]. Qed.
Ltac sd_step := lazymatch goal with
  | |- sd (sret _) => apply sd_ret
  | |- sd (sfail _) => apply sd_fail
  | |- sd (write _) => apply sd_write
  | |- sd (swrite_n _ _) => apply sd_n
  | |- sd (smod _) => apply sd_mod; reflexivity
  | |- sd (sguard _) => apply sd_guard
  | |- sd (if _ then _ else _) => apply sd_if
  | |- sd (sbind sget _) => apply sd_get; [reflexivity|intros ?]
  | |- sd (sbind _ _) => apply sd_bind; [|intros ?]
  end.
Ltac sd := repeat sd_step; try assumption.

Lemma assoc_removed k l : assoc k (pf_remove k l) = None.
Proof. induction l as [|[k' f] l IH]; cbn; [reflexivity|]. destruct (str_eqb k k') eqn:Q; [exact IH|]. cbn. now rewrite Q. Qed.
Lemma assoc_kept k j l : str_eqb j k = false -> assoc j (pf_remove k l) = assoc j l.
Proof.
  intros NE. induction l as [|[k' f] l IH]; cbn; [reflexivity|]. destruct (str_eqb k k') eqn:Q.
  - apply str_eqb_eq in Q as <-. now rewrite NE.
  - cbn. now rewrite IH.
Qed.

Section WithEnv.
Context {E : Env}.
Variable o : opts.
Variable p0 : pconf.
Notation cfg := (Some p0).
Lemma sd_validate n : sd (validate_identifier n).
Proof. unfold validate_identifier. sd. Qed.
Lemma sd_ident n : sd (write_identifier n).
Proof. unfold write_identifier. sd. apply sd_validate. Qed.
Lemma sd_start : sd (start_indent cfg).
Proof. unfold start_indent. sd. destruct (s_is_empty _) as [[|]|]; sd. Qed.
Lemma sd_indent : sd (indent cfg).
Proof. unfold indent. sd. Qed.
Lemma sd_end : sd (end_indent cfg).
Proof.
  unfold end_indent. sd; [destruct (s_is_empty _) as [[|]|]; sd|].
  destruct (s_indent _); [intros ? ? ? ?; exact Logic.I|sd].
Qed.
Lemma sd_open w len : sd (open_wide cfg w len).
Proof. unfold open_wide. sd. apply sd_start. Qed.
Lemma sd_close w : sd (close_wide cfg w).
Proof. unfold close_wide. sd. apply sd_end. Qed.
Lemma sd_separator w : sd (separator cfg w).
Proof. unfold separator. sd. Qed.
Lemma sd_trailing w f : sd (trailing cfg w f).
Proof. unfold trailing. sd. Qed.
Lemma sd_drop : sd drop_compound.
Proof. unfold drop_compound. sd. Qed.
Lemma sd_int k z : sd (ser_int cfg k z).
Proof. unfold ser_int. sd. Qed.
Lemma sd_float k b : sd (ser_float cfg k b).
Proof. unfold ser_float. sd. Qed.
Lemma sd_raw_str p v : sd (unescaped_or_raw p v).
Proof. unfold unescaped_or_raw. sd. Qed.
Lemma sd_str v : sd (ser_str cfg v).
Proof. unfold ser_str, escaped_str. sd. apply sd_raw_str. Qed.
Lemma sd_bytes v : sd (ser_bytes cfg v).
Proof. unfold ser_bytes, escaped_byte_str. sd. destruct (from_utf8 v); [apply sd_raw_str|sd]. Qed.
Lemma sd_unit : sd ser_unit.
Proof. unfold ser_unit. sd. Qed.
(** only the doc itself matters *)
Definition doc_go := fix go (ls : list str) : SM unit :=
  match ls with
  | [] => sret tt
  | l :: ls' => write s_doc_prefix ;~ write l ;~ write [c_nl] ;~ indent cfg ;~ go ls'
  end.
Lemma doc_lines_doc s : doc_lines cfg s = doc_go (lines (doc_at (s_meta s) []) []) s.
Proof. unfold doc_lines. unfold sbind at 1. unfold sget. destruct (s_meta s) as [[d [fs|]]|]; reflexivity. Qed.
Lemma sd_doc : sd (doc_lines cfg).
Proof.
  intros x s1 s2 T. rewrite !doc_lines_doc. destruct (T) as (E2 & D1 & D2). rewrite (D1 []), (D2 []).
  assert (G : forall ls, sd (doc_go ls)) by (induction ls as [|l ls IH]; cbn [doc_go]; sd; apply sd_indent). now apply G.
Qed.
Lemma sd_pretty_sep : sd (match cfg with Some p => write (p_separator p) | None => sret tt end).
Proof. exact (sd_write _). Qed.
#[local] Hint Resolve sd_validate sd_ident sd_start sd_indent sd_end sd_open sd_close sd_separator sd_trailing sd_drop sd_int sd_float sd_str sd_bytes sd_unit sd_doc sd_pretty_sep : sd.
Ltac sdd := sd; try (solve [auto with sd]).

(** entering and leaving a field *)
Lemma enter_den x k m : den m x -> den (fst (meta_enter k m)) (fun p => x (k :: p)).
Proof.
  intros D p. rewrite <- D. destruct m as [[d [l|]]|]; cbn [meta_enter fst doc_at]; [reflexivity|apply doc_none|apply doc_none].
Qed.
Lemma leave_den x k m inner : den m x -> den inner (fun p => x (k :: p)) -> den (meta_leave k inner (snd (meta_enter k m))) x.
Proof.
  intros D I1 p. destruct m as [[d [l|]]|]; cbn [meta_enter snd meta_leave]; [|apply D|apply D].
  rewrite <- D. destruct inner as [f|].
  - destruct p as [|j p]; [reflexivity|]. cbn [doc_at]. unfold pf_insert. cbn [assoc]. destruct (str_eqb j k) eqn:Q.
    + apply str_eqb_eq in Q as ->. rewrite I1, <- D. reflexivity.
    + now rewrite !assoc_kept by exact Q.
  - destruct p as [|j p]; [reflexivity|]. cbn [doc_at]. destruct (str_eqb j k) eqn:Q; [|now rewrite assoc_kept].
    apply str_eqb_eq in Q as ->. rewrite assoc_removed, doc_none. specialize (I1 p). rewrite doc_none, <- D in I1. exact I1.
Qed.
Lemma sd_field f k m : sd m -> sd (struct_field cfg f k m).
Proof.
  intros H x. unfold struct_field. apply sdp_get. intros s1 s2 (_ & D1 & D2).
  rewrite (surjective_pairing (meta_enter k (s_meta s1))), (surjective_pairing (meta_enter k (s_meta s2))).
    set (y := fun p => x (k :: p)).
    eapply sdp_bind with (y := y).
    { intros t1 t2 (E2 & _). cbn. split; [reflexivity|]. split; [|split; now apply enter_den]. rewrite E2. reflexivity. }
    intros _. assert (FI := sd_indent). assert (FD := sd_doc). assert (SEP := sd_separator wide_struct).
    eapply sdp_bind; [apply sd_if; [apply sd_ret|exact SEP]|intros _].
    eapply sdp_bind; [apply sd_if; [apply sd_ret|apply sd_bind; [exact FI|intros _; exact FD]]|intros _].
    eapply sdp_bind; [apply sd_ident|intros _]. eapply sdp_bind; [apply sd_write|intros _]. eapply sdp_bind; [apply sd_write|intros _].
    eapply sdp_bind; [apply sd_guard, H|intros _].
    eapply sdp_bind; [|intros _; apply sd_ret].
    intros t1 t2 (E2 & F1 & F2). cbn. split; [reflexivity|]. split; [|split; now apply leave_den]. rewrite E2. reflexivity.
Qed.
#[local] Hint Resolve sd_field : sd.
Lemma sd_num n : sd (ser_num cfg n).
Proof. destruct n; cbn; sdd. Qed.
Lemma sd_replay f x : sd (replay cfg f x).
Proof. destruct x as [[k n]|]; cbn; [|sdd]. apply sd_field, sd_num. Qed.
Lemma sd_buffered x : sd (write_buffered cfg x).
Proof. destruct x as [[k n]|]; cbn; [|sdd]. apply sd_num. Qed.
#[local] Hint Resolve sd_num sd_replay sd_buffered : sd.
Lemma sd_range_field rk c k v m : sd m -> sd (range_field cfg rk c k v m).
Proof. intros H. unfold range_field. destruct c as [a b|f]; [|sdd]. destruct (as_number v); sdd. Qed.
Lemma sd_struct_close n f : sd (struct_close cfg n f).
Proof. unfold struct_close. sdd. Qed.
Lemma sd_range_close rk c : sd (range_close cfg rk c).
Proof. destruct c as [a b|f]; cbn; [|apply sd_struct_close]. destruct rk; sdd. Qed.
Theorem sd_ser v : sd (ser o cfg v).
Proof.
  induction v as [v F|v IH|n v IH|l IH|l IH|n l IH|l IH|n l IH|n k v IH|n k l IH|n k l IH] using val_ind'.
  - destruct v; try contradiction; cbn [ser]; sdd.
    + unfold ser_char. sdd.
    + unfold ser_unit_struct. sdd.
    + unfold ser_none. sdd.
    + unfold ser_unit_variant. sdd.
    + unfold ser_raw. sdd.
  - cbn [ser]. unfold ser_some. sdd.
  - cbn [ser]. unfold ser_newtype. sdd.
  - cbn [ser]. unfold seq_open, seq_close. sdd. generalize (true, 0%nat). induction l as [|v l IHl]; intros c; [sdd|].
    destruct IH as [I1 I2]. apply sd_bind; [|intros c'; apply IHl; auto]. unfold seq_elem. destruct c as [f idx]. sdd.
  - cbn [ser]. unfold tuple_open, tuple_close. sdd. generalize true. induction l as [|v l IHl]; intros c; [sdd|].
    destruct IH as [I1 I2]. apply sd_bind; [|intros c'; apply IHl; auto]. unfold tuple_elem. sdd.
  - cbn [ser]. unfold tuple_struct_open, tuple_open, tuple_close. sdd. generalize true. induction l as [|v l IHl]; intros c; [sdd|].
    destruct IH as [I1 I2]. apply sd_bind; [|intros c'; apply IHl; auto]. unfold tuple_elem. sdd.
  - cbn [ser]. unfold map_open, map_close. sdd. generalize true. induction l as [|[k v] l IHl]; intros c; [sdd|].
    destruct IH as [[I1 I1'] I2]. apply sd_bind; [|intros c'; apply IHl; auto]. unfold map_entry. sdd.
  - cbn [ser]. destruct (range_kind_of cfg n (length l)) as [rk|].
    + sdd; [|apply sd_range_close]. generalize (RBuf None None). induction l as [|[k v] l IHl]; intros c; [sdd|].
      destruct IH as [I1 I2]. apply sd_bind; [now apply sd_range_field|intros c'; apply IHl; auto].
    + unfold struct_open. sdd; [|apply sd_struct_close]. generalize true. induction l as [|[k v] l IHl]; intros c; [sdd|].
      destruct IH as [I1 I2]. apply sd_bind; [|intros c'; apply IHl; auto]. now apply sd_field.
  - cbn [ser]. unfold ser_newtype_variant. sdd.
  - cbn [ser]. unfold tuple_variant_open, tuple_close. sdd. generalize true. induction l as [|v l IHl]; intros c; [sdd|].
    destruct IH as [I1 I2]. apply sd_bind; [|intros c'; apply IHl; auto]. unfold tuple_elem. sdd.
  - cbn [ser]. unfold struct_variant_open. sdd; [|apply sd_struct_close]. generalize true. induction l as [|[k' v] l IHl]; intros c; [sdd|].
    destruct IH as [I1 I2]. apply sd_bind; [|intros c'; apply IHl; auto]. now apply sd_field.
Qed.
Lemma sd_headers p ns : sd (write_headers p ns).
Proof. induction ns as [|n ns IH]; cbn [write_headers]; sdd. Qed.
Lemma sd_new : sd (ser_new o cfg).
Proof. unfold ser_new. sdd. apply sd_headers. Qed.
End WithEnv.

(** ser/mod.rs:122 the public field path_meta, assigned *)
Definition with_meta (m : option pfield) (p : pconf) : pconf :=
  PConf (p_depth_limit p) (p_new_line p) (p_indentor p) (p_separator p) (p_struct_names p) (p_separate_tuple_members p) (p_enumerate_arrays p)
    (p_extensions p) (p_compact_arrays p) (p_escape_strings p) (p_compact_structs p) (p_compact_maps p) (p_number_suffixes p) m (p_compact_ranges p).
Lemma headers_meta m p ns : write_headers (with_meta m p) ns = write_headers p ns.
Proof. induction ns as [|n ns IH]; cbn [write_headers]; [reflexivity|]. now rewrite IH. Qed.
Lemma new_meta {E : Env} o m p : ser_new o (Some (with_meta m p)) = ser_new o (Some p).
Proof. unfold ser_new. now rewrite headers_meta. Qed.
Theorem same_docs {E : Env} o p m1 m2 v : (forall path, doc_at m1 path = doc_at m2 path) ->
  to_string o (Some (with_meta m1 p)) v = to_string o (Some (with_meta m2 p)) v.
Proof.
  intros D. unfold to_string, to_writer.
  assert (T : twin (doc_at m1) (ser_init o (Some (with_meta m1 p)) None) (ser_init o (Some (with_meta m2 p)) None))
    by (repeat split; intros q; cbn [ser_init s_meta with_meta p_path_meta]; auto).
  assert (B := sd_bind _ _ (sd_new o p) (fun _ => sd_ser o p v) (doc_at m1) _ _ T).
  rewrite new_meta. change (ser o (Some (with_meta m1 p)) v) with (ser o (Some p) v).
  rewrite new_meta. change (ser o (Some (with_meta m2 p)) v) with (ser o (Some p) v).
  destruct ((ser_new o (Some p) ;~ ser o (Some p) v) _) as [a1 s1| |], ((ser_new o (Some p) ;~ ser o (Some p) v) _) as [a2 s2| |]; try contradiction; auto.
  - destruct B as [_ (E2 & _)]. rewrite E2. reflexivity.
  - now subst.
Qed.
