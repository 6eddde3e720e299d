(** C59: structs with flattened fields. *)
From Coq Require Import String Ascii NArith ZArith Lia Bool List Permutation.
From Coq Require Import ZifyBool ZifyNat ZifyN.
From Verif Require Import Base Facts Value Data Parse De Span Ser Wp EnvOk Layout Lit Attr DocSafe DocRead SerLex LexDoc LexSafe DeSafe Typing Typed Repr ReprFacts TypedRead TypedMain RangeSpec SerNum SerWp SerRepr ThmTyped IntoRust Content VRepr AnyRead Unwrap ContentRead ThmThrough Buffered ContentWrite Tagged TaggedRead TaggedWrite ThmUntagged ThmTagged Fuel AdjacentSafe ThmEnums Flatten FlatSafe FlatRead StructSpec FlatFail FlatWrite Toy.
Import ListNotations.
Open Scope N_scope.
Open Scope list_scope.
Open Scope m_scope.

(** the fields in the order of their declarations, from those of the struct
    itself and the flattened ones *)
Inductive made : list (str * fdecl) -> list (str * val) -> list val -> list (str * val) -> Prop :=
  | md_nil : made [] [] [] []
  | md_own k t v ds own flat fs : made ds own flat fs -> made ((k, FOwn t) :: ds) ((k, v) :: own) flat ((k, v) :: fs)
  | md_flat k d v ds own flat fs : (forall t, d <> FOwn t) -> made ds own flat fs -> made ((k, d) :: ds) own (v :: flat) ((k, v) :: fs).
(** What a field may hold: for one of the struct itself the conditions are
    those of C20, the values in flattened fields are restricted like those of
    untagged enums. *)
Definition field_fine {E : Env} (o : opts) (cfg : option pconf) (d : fdecl) (v : val) : Prop :=
  match d, v with
  | FOwn _, _ => ranges_ok (extensions o cfg) cfg false v /\ clash (extensions o cfg) v = false
  | FStruct _ _, VStruct _ l => Forall (fun kv => restricted (extensions o cfg) (compact_ranges cfg) false (snd kv)) l
  | FMap _, VMap es => Forall (fun kv => restricted (extensions o cfg) (compact_ranges cfg) false (snd kv)) es
  | _, _ => False
  end.

Section Proofs.
Context {E : Env} {X : XidOk E} {FO : FloatOk E}.
Lemma made_assembles ds own flat fs : made ds own flat fs -> assemble ds own flat = fs.
Proof.
  induction 1 as [|k t v ds own flat fs _ IH|k d v ds own flat fs ND _ IH]; [reflexivity|..]; cbn [assemble].
  - now rewrite IH.
  - destruct d as [t| |]; [now destruct (ND t)|..]; now rewrite IH.
Qed.
(** Reading: the entries may come in any order and spelling. *)
Theorem C59_read sf tenv fok1 fok2 deny sname decls o c l own flat left fs w0 at0 e w t w1 :
  layout w0 -> attrs_text at0 e -> layout w -> items (flat_item (exts_or e (o_exts o)) sf c) l t -> final_layout w1 ->
  NoDup (map fst (own_types decls)) -> map fst own = map fst (own_types decls) -> Permutation own (lefts l) ->
  Forall (fun fv => exists T, In (fst fv, T) (own_types decls) /\ typed tenv fok1 T (snd fv) /\ (need (snd fv) <= c)%nat) own ->
  Forall (fun kx => ~ In (fst kx) (map fst (own_types decls))) (rights l) ->
  parts tenv fok2 decls (rights l) flat left -> (deny = true -> left = []) -> made decls own flat fs -> room (S (S c)) (o_limit o) ->
  exists n, forall f, (n <= f)%nat ->
    options_from_str o (de_flat tenv f deny sname decls) (w0 ++ at0 ++ (c_lc :: w ++ t ++ [c_rc]) ++ w1) = RValue (VStruct sname fs).
Proof.
  intros L0 HA L IT FL ND EQ P FT FR PT DN MD RM. rewrite <- (made_assembles _ _ _ _ MD).
  destruct (tr_flat (exts_or e (o_exts o)) sf tenv fok1 decls deny sname c l t w own flat left IT L ND EQ P FT FR (parts_convert tenv fok2 _ _ _ _ PT) DN) as (n & H).
  exists n. intros f LF. specialize (H f LF).
  eapply document_reads; [exact L0|exact HA|apply opens_start; split; [reflexivity|cbn; intuition discriminate]|exact FL|].
  intros T s J Hs He Hn Hl _.
  eapply wp_conseq; [apply (H T s w1); auto; [exact Logic.I|now rewrite Hl]| |auto]. cbn beta. tauto.
Qed.

(** It fails where a field of the struct itself comes a second time, whatever
    follows; *)
Lemma flat_fails (m : M val) o w0 at0 e c tb (D : str -> Prop) r x : layout w0 -> attrs_text at0 e -> room c (o_limit o) -> D r ->
  tfi (exts_or e (o_exts o)) m false c (c_lc :: tb) D x ->
  exists sp, options_from_str o m (w0 ++ at0 ++ (c_lc :: tb) ++ r) = RError x sp.
Proof.
  intros L0 HA RM Dr H. destruct (LexDoc.document_fails o m w0 at0 e ((c_lc :: tb) ++ r) (eq x) L0 HA) as (y & sp & Q & ->).
  - apply opens_start. split; [reflexivity|cbn; intuition discriminate].
  - intros T s J Hs He Hn Hl _. apply (H T s r); auto. now rewrite Hl.
  - eauto.
Qed.
Theorem C59_duplicate sf tenv fok deny sname decls o c l tk k w0 at0 e w t r :
  layout w0 -> attrs_text at0 e -> layout w -> opened (flat_item (exts_or e (o_exts o)) sf c) l t -> string_lit tk k ->
  NoDup (map fst (own_types decls)) -> NoDup (map fst (lefts l)) -> In k (map fst (lefts l)) ->
  Forall (fun fv => exists T, In (fst fv, T) (own_types decls) /\ typed tenv fok T (snd fv) /\ (need (snd fv) <= c)%nat) (lefts l) ->
  Forall (fun kx => ~ In (fst kx) (map fst (own_types decls))) (rights l) -> room (S (S c)) (o_limit o) ->
  exists n, forall f, (n <= f)%nat -> exists sp,
    options_from_str o (de_flat tenv f deny sname decls) (w0 ++ at0 ++ (c_lc :: w ++ t ++ tk) ++ r) = RError (EDuplicateStructField k None) sp.
Proof.
  intros L0 HA L OP HK ND NL IN OW FR RM.
  destruct (flat_twice (exts_or e (o_exts o)) sf tenv fok decls deny sname c l t w tk k OP L ND OW FR NL IN HK) as (n & H).
  exists n. intros f LF. eapply flat_fails; [exact L0|exact HA|exact RM| |exact (H f LF)]. exact Logic.I.
Qed.
(** where one is left out that is not an option; *)
Theorem C59_missing sf tenv fok deny sname decls o c l before k T after w0 at0 e w t r :
  layout w0 -> attrs_text at0 e -> layout w -> items (flat_item (exts_or e (o_exts o)) sf c) l t ->
  NoDup (map fst (own_types decls)) -> NoDup (map fst (lefts l)) ->
  own_types decls = before ++ (k, T) :: after -> Forall (fun ft => In (fst ft) (map fst (lefts l)) \/ is_option tenv (snd ft) = true) before ->
  ~ In k (map fst (lefts l)) -> is_option tenv T = false ->
  Forall (fun fv => exists T, In (fst fv, T) (own_types decls) /\ typed tenv fok T (snd fv) /\ (need (snd fv) <= c)%nat) (lefts l) ->
  Forall (fun kx => ~ In (fst kx) (map fst (own_types decls))) (rights l) -> room (S (S c)) (o_limit o) ->
  exists n, forall f, (n <= f)%nat -> exists sp,
    options_from_str o (de_flat tenv f deny sname decls) (w0 ++ at0 ++ (c_lc :: w ++ t) ++ c_rc :: r) = RError (EMissingStructField k None) sp.
Proof.
  intros L0 HA L IT ND NL QF BF NK O OW FR RM.
  destruct (flat_missing (exts_or e (o_exts o)) sf tenv fok decls deny sname c l t w before k T after IT L ND OW FR NL QF BF NK O) as (n & H).
  exists n. intros f LF. eapply flat_fails; [exact L0|exact HA|exact RM| |exact (H f LF)]. now exists r.
Qed.
(** and, if the struct denies unknown fields, where an entry is left over. *)
Theorem C59_denied sf tenv fok1 fok2 sname decls o c l own flat left w0 at0 e w t r :
  layout w0 -> attrs_text at0 e -> layout w -> items (flat_item (exts_or e (o_exts o)) sf c) l t ->
  NoDup (map fst (own_types decls)) -> map fst own = map fst (own_types decls) -> Permutation own (lefts l) ->
  Forall (fun fv => exists T, In (fst fv, T) (own_types decls) /\ typed tenv fok1 T (snd fv) /\ (need (snd fv) <= c)%nat) own ->
  Forall (fun kx => ~ In (fst kx) (map fst (own_types decls))) (rights l) ->
  parts tenv fok2 decls (rights l) flat left -> left <> [] -> room (S (S c)) (o_limit o) ->
  exists n, forall f, (n <= f)%nat -> exists sp,
    options_from_str o (de_flat tenv f true sname decls) (w0 ++ at0 ++ (c_lc :: w ++ t) ++ c_rc :: r) = RError EMessage sp.
Proof.
  intros L0 HA L IT ND EQ P OW FR PT NE RM.
  destruct (flat_denied (exts_or e (o_exts o)) sf tenv fok1 decls sname c l t w own flat left IT L ND EQ P OW FR (parts_convert tenv fok2 _ _ _ _ PT) NE) as (n & H).
  exists n. intros f LF. eapply flat_fails; [exact L0|exact HA|exact RM| |exact (H f LF)]. now exists r.
Qed.

Lemma made_of tenv fok1 fok2 ds fs : flat_val tenv fok1 fok2 ds fs -> made ds (lefts (all_parts ds fs)) (flats ds fs) fs.
Proof.
  induction 1 as [|k t v ds fs HT _ IH|k name fields l ds fs ND EQ FT _ IH|k t es ds fs FT _ IH]; cbn [all_parts flats].
  - constructor.
  - cbn [part app lefts flat_map]. now constructor.
  - rewrite lefts_app. cbn [part]. rewrite lefts_inr. cbn [app]. now constructor.
  - destruct (str_keys tenv fok2 t es FT) as (l & Q1 & Q2). rewrite lefts_app, map_part, Q1, lefts_inr. cbn [app]. now constructor.
Qed.
Lemma untag_keys l : map fst (map untag l) = map (fun p => VStr match p with inl kv | inr kv => fst kv end) l.
Proof. rewrite map_map. apply map_ext. now intros [[]|[]]. Qed.
Definition key_of (p : (str * val) + (str * val)) : str := match p with inl kv | inr kv => fst kv end.
Lemma keys_apart (l : list ((str * val) + (str * val))) : NoDup (map key_of l) ->
  NoDup (map fst (lefts l)) /\ NoDup (map fst (rights l)) /\ forall k, In k (map fst (lefts l)) -> ~ In k (map fst (rights l)).
Proof.
  assert (IL : forall (l : list ((str * val) + (str * val))) k, In k (map fst (lefts l)) -> In k (map key_of l)).
  { induction l0 as [|[p|p] l0 IH]; cbn; intros k; [auto|intros [->|H]; auto|intros H; right; now apply IH]. }
  assert (IR : forall (l : list ((str * val) + (str * val))) k, In k (map fst (rights l)) -> In k (map key_of l)).
  { induction l0 as [|[p|p] l0 IH]; cbn; intros k; [auto|intros H; right; now apply IH|intros [->|H]; auto]. }
  induction l as [|[p|p] l IH]; cbn [map key_of]; intros ND; [split; [constructor|split; [constructor|intros ? []]]|..]; inversion ND as [|? ? NI ND']; subst; destruct (IH ND') as (H1 & H2 & H3);
    cbn [lefts rights flat_map app map]; fold (lefts l); fold (rights l).
  - split; [constructor; [intros H; apply NI, (IL l _ H)|exact H1]|]. split; [exact H2|]. intros k [<-|H]; [intros H; apply NI, (IR l _ H)|now apply H3].
  - split; [exact H1|]. split; [constructor; [intros H; apply NI, (IR l _ H)|exact H2]|]. intros k H [<-|H']; [apply NI, (IL l _ H)|now apply (H3 k)].
Qed.
Lemma parts_writable tenv o cfg ds fs (fok2 : fk -> N -> Prop) : valid_config cfg -> struct_names o cfg = false ->
  (forall k b, fok2 k b -> exists n, num_text n (SerLex.float_text k b ++ if number_suffixes cfg then fk_suffix k else []) /\ num_into n (TFloat k) = Some (VFloat k b)) ->
  (forall k b, fok2 k b -> b < 2 ^ f_bits k /\ canon k b = b) ->
  flat_val tenv float_val fok2 ds fs -> Forall2 (fun d f => field_fine o cfg (snd d) (snd f)) ds fs ->
  forall p, In p (all_parts ds fs) -> wf_str (key_of p) -> writable o cfg p.
Proof.
  intros VC SN HF HC FV FF.
  assert (WR : forall T v, typed tenv fok2 T v -> restricted (extensions o cfg) (compact_ranges cfg) false v -> writes o cfg (ContentWrite.EL o cfg) v).
  { intros T v HT R i. apply (ContentWrite.sem_elem o cfg SN v i); [|exact R]. now apply (ser_buffered o cfg VC SN fok2 HF HC tenv v T). }
  induction FV as [|k t v ds fs HT _ IH|k name fields l ds fs ND EQ FT _ IH|k t es ds fs FT _ IH]; cbn [all_parts]; inversion FF as [|? ? ? ? F0 FF']; subst; try (cbn [snd] in F0); intros p IN WK.
  - contradiction.
  - cbn [part app] in IN. destruct IN as [<-|IN]; [|now apply IH]. cbn [writable key_of fst] in *. split; [exact WK|]. cbn [field_fine] in F0. destruct F0 as [RO CL].
    apply SerRepr.sem_writes. split; [|exact RO]. apply (ser_sem o cfg VC float_val); [auto|now apply typed_plain with tenv t|exact CL].
  - apply in_app_or in IN as [IN|IN]; [|now apply IH]. cbn [part] in IN. apply in_map_iff in IN as ([k' v] & <- & IN). cbn [writable key_of fst] in *. split; [exact WK|].
    cbn [field_fine] in F0. rewrite Forall_forall in F0, FT. destruct (FT _ IN) as (T & _ & HT). apply (WR T); [exact HT|exact (F0 _ IN)].
  - apply in_app_or in IN as [IN|IN]; [|now apply IH]. destruct (str_keys tenv fok2 t es FT) as (l & Q1 & Q2). rewrite map_part, Q1 in IN. apply in_map_iff in IN as ([k' v] & <- & IN).
    cbn [writable key_of fst] in *. split; [exact WK|]. cbn [field_fine] in F0. rewrite Forall_forall in F0, FT.
    assert (IN' : In (VStr k', v) es) by (rewrite Q2; exact (in_map (fun p => (VStr (fst p), snd p)) _ _ IN)).
    destruct (FT _ IN') as [_ HT]. apply (WR t); [exact HT|exact (F0 _ IN')].
Qed.
(** What is written comes back. *)
Theorem C59_round_trip_partial tenv o cfg deny sname decls fs es text : FloatIn bits -> widens -> valid_config cfg -> struct_names o cfg = false ->
  flat_val tenv float_val (fun k b => float_val k b /\ bound_fine (number_suffixes cfg) (VFloat k b)) decls fs ->
  Forall2 (fun d f => field_fine o cfg (snd d) (snd f)) decls fs ->
  map_last decls -> (deny = true -> forall k t, ~ In (k, FMap t) decls) ->
  flat_entries decls fs = Some es -> NoDup (map fst es) -> Forall (fun kv => exists s, fst kv = VStr s /\ wf_str s) es ->
  room (need (VMap es)) (o_limit o) -> flat_to_string o cfg es = inl text ->
  exists n, forall f, (n <= f)%nat -> options_from_str o (de_flat tenv f deny sname decls) text = RValue (VStruct sname fs).
Proof.
  intros FI WI VC SN FV FF ML DN FE0 ND WK RM TS. set (fok := fun k b => _) in *.
  assert (HF : forall k b, fok k b ->
    exists n, num_text n (SerLex.float_text k b ++ if number_suffixes cfg then fk_suffix k else []) /\ num_into n (TFloat k) = Some (VFloat k b)).
  { intros k b [FV' BF]. destruct (bound_num k b (num_text_of cfg (VFloat k b)) FI) as (n & NT & _ & NI).
    - apply (bound_text cfg (VFloat k b)); auto; [discriminate|]. intros k' b' Q. injection Q as <- <-. exact FV'.
    - exists n. split; [exact NT|exact NI]. }
  assert (HC : forall k b, float_val k b /\ bound_fine (number_suffixes cfg) (VFloat k b) -> b < 2 ^ f_bits k /\ canon k b = b) by (intros k b [FV' _]; exact FV').
  assert (EE := flat_entries_parts tenv float_val fok decls fs FV). rewrite FE0 in EE. injection EE as ->.
  set (l := all_parts decls fs) in *.
  assert (NDK : NoDup (map key_of l)).
  { rewrite untag_keys in ND. change (fun p => VStr _) with (fun p => VStr (key_of p)) in ND. rewrite <- (map_map key_of VStr) in ND. now apply NoDup_map_inv in ND. }
  destruct (keys_apart l NDK) as (N1 & N2 & N3).
  assert (WS : forall p, In p l -> writable o cfg p).
  { intros p IN. apply (parts_writable tenv o cfg decls fs fok); auto. rewrite Forall_forall in WK. destruct (WK (untag p)) as (s & Q & W); [now apply in_map|].
    destruct p as [[k v]|[k v]]; cbn in Q |- *; now injection Q as ->. }
  set (c := max_list (map (fun kv => Nat.max (need (fst kv)) (need (snd kv))) (map untag l))).
  destruct (em_flat_string o cfg VC (map untag l) text (fun t => exists w ti, t = c_lc :: w ++ ti ++ [c_rc] /\ layout w /\ neat (FE o cfg) l ti)) as (a & y & t & -> & HA & EX & w & ti & -> & L & NT); [|exact TS|].
  { apply (em_flat o cfg VC l 0 false 0 WS). eauto. }
  destruct (flat_items o cfg l ti c NT) as (l' & IT & QL & HR).
  { intros p IN. assert (M := max_list_map (fun kv => Nat.max (need (fst kv)) (need (snd kv))) (map untag l) (untag p) (in_map _ _ _ IN)). fold c in M. cbn beta in M. lia. }
  destruct (own_parts tenv float_val fok decls fs FV) as (O1 & O2 & _). fold l in O1, O2.
  destruct (parts_of tenv float_val fok decls fs FV ML (rights l') HR N2) as (left & PT & NL).
  assert (NF : Forall (fun kx => ~ In (fst kx) (map fst (own_types decls))) (rights l')).
  { rewrite Forall_forall. intros kx IN IN'. rewrite <- O1 in IN'. apply (N3 _ IN'). rewrite <- (holds_keys _ _ HR). now apply in_map. }
  assert (OW : Forall (fun fv => exists T, In (fst fv, T) (own_types decls) /\ typed tenv float_val T (snd fv) /\ (need (snd fv) <= c)%nat) (lefts l)).
  { assert (NC : Forall (fun fv => (need (snd fv) <= c)%nat) (lefts l)).
    { rewrite Forall_forall. intros fv IN. unfold lefts in IN. apply in_flat_map in IN as ([fv'|] & IN & H0); [|contradiction]. cbn in H0. destruct H0 as [->|[]].
      assert (M := max_list_map (fun kv => Nat.max (need (fst kv)) (need (snd kv))) (map untag l) (untag (inl fv)) (in_map _ _ _ IN)). fold c in M. cbn beta in M. destruct fv. cbn [untag snd fst] in *. lia. }
    rewrite Forall_forall in *. intros fv IN. specialize (NC fv IN). clear - O2 IN NC.
    assert (H : exists ft, In ft (own_types decls) /\ fst fv = fst ft /\ typed tenv float_val (snd ft) (snd fv)).
    { induction O2 as [|ft fv' ts vs [H1 H2] _ IH]; [contradiction|]. destruct IN as [->|IN]; [exists ft; split; [now left|auto]|]. destruct (IH IN) as (ft' & I' & H'). exists ft'. split; [now right|exact H']. }
    destruct H as ([k T] & IN' & Q & HT). cbn [fst snd] in *. exists T. rewrite Q. auto. }
  destruct (C59_read (sf cfg) tenv float_val fok deny sname decls o c l' (lefts l) (flats decls fs) left fs [] a y w ti []) as (n & H); auto.
  - constructor.
  - now rewrite EX.
  - left. constructor.
  - now rewrite <- O1.
  - rewrite QL. apply Permutation_refl.
  - now apply made_of with (1 := FV).
  - exists n. intros f LF. specialize (H f LF). rewrite app_nil_r in H. exact H.
Qed.
(** C16, C17 *)
Theorem C17_flatten_terminates tenv rank o f deny sname decls text : ranked tenv rank -> (forall d, In d decls -> (fdepth rank (snd d) < f)%nat) ->
  options_from_str o (de_flat tenv f deny sname decls) text <> RPanic /\ options_from_str o (de_flat tenv f deny sname decls) text <> RDiverges.
Proof. intros RK H. now apply fine_outcome, de_flat_fine with rank. Qed.
End Proofs.
Print Assumptions C59_read.
Print Assumptions C59_duplicate.
Print Assumptions C59_missing.
Print Assumptions C59_denied.
Print Assumptions C59_round_trip_partial.
Print Assumptions C17_flatten_terminates.

(** ** Examples *)
#[local] Existing Instance Toy.
#[local] Existing Instance toy_xid.
#[local] Existing Instance toy_float.

(** struct Main { #[serde(flatten)] required: Required, other: u32,
    #[serde(flatten)] rest: HashMap<String, Option<bool>> } with
    struct Required { first: u32, second: Option<char> } *)
Definition ex_required : list (str * ty) := Eval vm_compute in [(lit "first", TInt U32); (lit "second", TOption TChar)].
Definition ex_decls : list (str * fdecl) := Eval vm_compute in
  [(lit "required", FStruct (lit "Required") ex_required); (lit "other", FOwn (TInt U32)); (lit "rest", FMap (TOption TBool))].
Definition ex_main : str := Eval vm_compute in lit "Main".
Definition ex_fields : list (str * val) := Eval vm_compute in
  [(lit "required", VStruct (lit "Required") [(lit "first", VInt U32 1); (lit "second", VSome (VChar 120))]);
   (lit "other", VInt U32 1337); (lit "rest", VMap [(VStr (lit "x"), VNone); (VStr (lit "y z"), VSome (VBool true))])].
Definition flat_writes (o : opts) (cfg : option pconf) (text : str) : Prop := exists es, flat_entries ex_decls ex_fields = Some es /\
  NoDup (map fst es) /\ Forall (fun kv => exists s, fst kv = VStr s /\ wf_str s) es /\ room (need (VMap es)) (o_limit o) /\
  Forall2 (fun d f => field_fine o cfg (snd d) (snd f)) ex_decls ex_fields /\
  flat_to_string o cfg es = inl text /\ options_from_str o (de_flat no_refs 9 false ex_main ex_decls) text = RValue (VStruct ex_main ex_fields).
Ltac flat_written := unfold flat_writes; eexists; split; [reflexivity|split; [repeat (constructor; [cbn; intuition discriminate|]); constructor|split;
  [repeat (constructor; [eexists; split; [reflexivity|repeat (constructor; [reflexivity|]); constructor]|]); constructor|split; [cbn; lia|split;
  [repeat (constructor; [cbn; repeat (split || constructor || discriminate)|]); constructor|split; vm_compute; reflexivity]]]]].
Example C59_ex : flat_val no_refs float_val (fun k b => float_val k b /\ bound_fine false (VFloat k b)) ex_decls ex_fields /\ map_last ex_decls /\
  flat_writes opts_default None (lit "{""first"":1,""second"":Some('x'),""other"":1337,""x"":None,""y z"":Some(true)}") /\
  flat_writes opts_default (Some pconf_default) (lit "{
    ""first"": 1,
    ""second"": Some('x'),
    ""other"": 1337,
    ""x"": None,
    ""y z"": Some(true),
}").
Proof.
  split; [|split; [cbn; constructor|split; flat_written]].
  apply fl_struct; [apply nodup_str; reflexivity|reflexivity| |].
  - constructor; [eexists; split; [left; reflexivity|constructor; reflexivity]|]. constructor; [|constructor].
    eexists. split; [right; left; reflexivity|]. apply ty_some. now constructor.
  - apply fl_own; [constructor; reflexivity|]. apply fl_map; [|constructor].
    repeat (constructor; [split; [constructor; repeat (constructor; [reflexivity|]); constructor|]|]); constructor. constructor.
Qed.
(** Entries in another order and other spellings; a field that is missing, one
    that comes twice, a key that is no string, and errors of the tests
    (tests/115_minimal_flattening.rs). *)
Definition ex_read (text : str) : result val := options_from_str opts_default (de_flat no_refs 9 false ex_main ex_decls) text.
Example C59_read_ex :
  ex_read (lit "{ ""x"" : None, r#""other""# : 1_337, /* */ ""first"":0x1, ""y z"":Some( true ) , ""second"":Some('x')}") = RValue (VStruct ex_main ex_fields) /\
  (exists p, ex_read (lit "{""first"":1}") = RError (EMissingStructField (lit "other") None) p) /\
  (exists p, ex_read (lit "{""other"":1}") = RError (EMissingStructField (lit "first") None) p) /\
  (exists p, ex_read (lit "{""other"":1,""other"":1}") = RError (EDuplicateStructField (lit "other") None) p) /\
  (exists p, ex_read (lit "{""first"":1,""first"":1,""other"":1}") = RError (EDuplicateStructField (lit "first") None) p) /\
  (exists p, ex_read (lit "{other:1}") = RError EExpectedString p) /\
  (exists p, ex_read (lit "(first:1,other:1)") = RError EExpectedMap p) /\
  (exists p, ex_read (lit "{""other"":1,""first:2,""x"":None}") = RError EExpectedMapColon p).
Proof. split; [vm_compute; reflexivity|]. repeat split; eexists; vm_compute; reflexivity. Qed.
(** unknown entries are refused if the struct asks for that *)
Example C59_deny_ex :
  options_from_str opts_default (de_flat no_refs 9 true ex_main (firstn 2 ex_decls)) (lit "{""first"":1,""other"":2}") =
    RValue (VStruct ex_main [(lit "required", VStruct (lit "Required") [(lit "first", VInt U32 1); (lit "second", VNone)]); (lit "other", VInt U32 2)]) /\
  (exists p, options_from_str opts_default (de_flat no_refs 9 true ex_main (firstn 2 ex_decls)) (lit "{""first"":1,""other"":2,""z"":1}") = RError EMessage p).
Proof. split; [vm_compute; reflexivity|eexists; vm_compute; reflexivity]. Qed.
Example C17_flatten_ex : ranked no_refs (fun _ => 1%nat) /\ (forall d, In d ex_decls -> (fdepth (fun _ => 1%nat) (snd d) < 9)%nat) /\
  exists p, ex_read (lit "{""other"":") = RError EEof p.
Proof.
  split; [intros n; cbn; lia|]. split; [|eexists; vm_compute; reflexivity].
  intros d H. unfold ex_decls in H. repeat (destruct H as [<-|H]; [cbn; lia|]). destruct H.
Qed.

(** Without the conditions values are lost or changed. *)
Definition lost_flat (o : opts) (cfg : option pconf) (deny : bool) (ds : list (str * fdecl)) (fs : list (str * val)) : Prop :=
  flat_val no_refs float_val float_val ds fs /\ exists es text r, flat_entries ds fs = Some es /\ flat_to_string o cfg es = inl text /\
    options_from_str o (de_flat no_refs 20 deny ex_main ds) text = r /\ r <> RValue (VStruct ex_main fs) /\ r <> RDiverges.
Ltac lose_flat := eexists _, _, _; split; [reflexivity|split; [vm_compute; reflexivity|split; [vm_compute; reflexivity|split; discriminate]]].
(** struct_names inside (tests/502_known_bugs.rs:155-203) *)
Theorem C59_names_refuted : lost_flat opts_default names_on false
  [(lit "ho", FOwn (TInt I32)); (lit "a", FStruct (lit "B") [(lit "a", TStruct false (lit "A") [(lit "hi", TInt I32)])])]
  [(lit "ho", VInt I32 24); (lit "a", VStruct (lit "B") [(lit "a", VStruct (lit "A") [(lit "hi", VInt I32 42)])])].
Proof.
  split; [|lose_flat]. apply fl_own; [constructor; reflexivity|]. apply fl_struct; [apply nodup_str; reflexivity|reflexivity| |constructor].
  constructor; [|constructor]. eexists. split; [left; reflexivity|]. apply ty_struct; [apply nodup_str; reflexivity|reflexivity|].
  constructor; [|constructor]. eexists. split; [left; reflexivity|]. constructor; reflexivity.
Qed.
Ltac flat_u8 := constructor; reflexivity.
(** a flattened map before a flattened struct also gets the entries of that *)
Theorem C59_map_first_refuted : lost_flat opts_default None false
  [(lit "m", FMap (TInt U8)); (lit "s", FStruct (lit "S") [(lit "a", TInt U8)])]
  [(lit "m", VMap []); (lit "s", VStruct (lit "S") [(lit "a", VInt U8 1)])].
Proof.
  split; [|lose_flat]. apply fl_map; [constructor|]. apply fl_struct; [apply nodup_str; reflexivity|reflexivity| |constructor].
  constructor; [|constructor]. eexists. split; [left; reflexivity|flat_u8].
Qed.
(** a flattened map with the name of a field as a key *)
Theorem C59_same_key_refuted : lost_flat opts_default None false
  [(lit "a", FOwn (TInt U8)); (lit "m", FMap (TInt U8))] [(lit "a", VInt U8 1); (lit "m", VMap [(VStr (lit "a"), VInt U8 2)])].
Proof.
  split; [|lose_flat]. apply fl_own; [flat_u8|]. apply fl_map; [|constructor]. constructor; [|constructor].
  split; [constructor; repeat (constructor; [reflexivity|]); constructor|flat_u8].
Qed.
(** a flattened map does not count as knowing its entries *)
Theorem C59_deny_map_refuted : lost_flat opts_default None true [(lit "m", FMap (TInt U8))] [(lit "m", VMap [(VStr (lit "b"), VInt U8 2)])].
Proof.
  split; [|lose_flat]. apply fl_map; [|constructor]. constructor; [|constructor].
  split; [constructor; repeat (constructor; [reflexivity|]); constructor|flat_u8].
Qed.
Print Assumptions C59_names_refuted.
Print Assumptions C59_map_first_refuted.
Print Assumptions C59_same_key_refuted.
Print Assumptions C59_deny_map_refuted.
