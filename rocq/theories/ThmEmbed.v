(** C28: raw values inside larger values. *)
From Coq Require Import String Ascii NArith ZArith Lia Bool List.
From Coq Require Import ZifyBool ZifyNat ZifyN.
From Verif Require Import Base Facts Value Data Parse De Span Ser Raw Wp EnvOk LexSafe DeSafe Layout LexWs Lit Attr Inv LexSound LexDoc Repr RangeSpec Accept
  Pieces Sound DocSafe DocRead DocSound Keep ReprFacts Typed Typing TypedRead TypedMain SerLex SerWp SerRepr SerRaw Exact RawRead RawSpec RawEmbed RawMain SerEmbed ThmTyped ThmRaw Toy.
Import ListNotations.
Open Scope N_scope.
Open Scope list_scope.
Open Scope m_scope.

Section Proofs.
Context {E : Env} {X : XidOk E}.

(** [r] alone is a document that is read as the raw value [r], in [n] levels *)
Definition alone (n : nat) (r : str) : Prop :=
  options_from_str (Opts exts_empty (Some n)) (de_ty (fun _ => TUnit) 1 TRaw) r = RValue (VRaw r).

(** so is what the constructor accepts, if it has no attributes *)
Lemma from_ron_alone r : raw_from_ron r = RValue r -> no_attrs r -> alone 128 r.
Proof.
  intros H NA. assert (G : exists r', options_from_str (Opts exts_empty (Some 128%nat)) (de_ty (fun _ => TUnit) 1 TRaw) r = RValue (VRaw r')).
  { unfold raw_from_ron, spanned in H. match type of H with match ?m with _ => _ end = _ => destruct m as [a s|x s| |] eqn:HM end; try discriminate; [|destruct (span_error r s); discriminate].
    unfold deserializer_new in HM. apply bind_ok in HM as (u & s1 & H1 & HM). apply bind_ok in H1 as (u' & s0 & H0 & H1).
    apply bind_ok in HM as (z & s1' & H2 & HM). apply get_ok in H2 as [-> ->]. destruct (negb _) in HM; [now apply fail_ok in HM|].
    apply bind_ok in HM as (r' & s4 & HR & HM). apply bind_ok in HM as (u3 & s5 & HE & HM).
    exists r'. unfold options_from_str, from_str, document. unfold bind at 1. rewrite H0. unfold bind at 1.
    change (o_limit (Opts exts_empty (Some 128%nat))) with (o_limit opts_default). change (o_exts (Opts exts_empty (Some 128%nat))) with (o_exts opts_default).
    rewrite H1. unfold bind at 1. cbn [de_ty de_step]. unfold bind at 1. rewrite HR. cbn [ret]. unfold bind at 1. rewrite HE. reflexivity. }
  destruct G as (r' & G). unfold alone. rewrite G. apply C26_document in G as (b & r2 & Q & QT & HB & _). rewrite (HB NA) in QT. cbn in QT. congruence.
Qed.
Lemma alone_ok n r : alone n r -> exists t x d, around t r /\ tight t /\ vacc exts_empty false x t d /\ embeds (Some n) x t.
Proof.
  intros H. apply typed_whole in H as (s & H & _ & FL). unfold DocSafe.head in H.
  apply bind_ok in H as (u & s0 & H0 & H). assert (RD0 := parser_new_ready _ _ _ H0).
  apply parser_new_ok in H0 as (I0 & _ & N0 & w & b & y & QT & E0 & LA).
  apply bind_ok in H as (u' & s1 & H1 & H). apply modify_ok in H1.
  assert (I1 : inv r s1) by (subst s1; exact I0). assert (RD1 : Keep.ready s1) by (subst s1; exact RD0). assert (R1 : rest s1 = rest s0) by (subst s1; reflexivity).
  assert (N1 : nt s1 = false) by (subst s1; exact N0). assert (L1 : lim s1 = Some n) by (subst s1; reflexivity).
  assert (E1 : ext s1 = y) by (subst s1; cbn; rewrite E0; apply exts_or_empty). clear H1.
  cbn [de_ty de_step] in H. apply bind_ok in H as (r' & s5 & HR & H). apply ret_ok in H as [QR QS]. injection QR as <-. subst s5.
  destruct (de_raw_text r s1 r s I1 HR) as [PW SR].
  assert (RS : rest s = []). { destruct SR as [SR|SR]; [exact SR|]. destruct (rest s) as [|c rs] eqn:QR; [reflexivity|exfalso]. eapply solid_final; eassumption. }
  rewrite RS, app_nil_r in PW.
  unfold de_raw in HR. apply bind_ok in HR as (before & s2 & H2 & HR). injection H2 as <- <-.
  apply bind_ok in HR as ([] & s2 & H2 & HR). assert (RD2 := skip_ws_ready _ _ _ (ready_tracked _ RD1) H2). assert (H20 := H2). apply (skip_ws_ok r) in H2 as (A2 & w2 & Q2 & L2); [|exact I1].
  apply bind_ok in HR as (x & s3 & H3 & HR). assert (D3 := any_value_dok r s2 x s3 (adv_inv _ _ _ A2) H3).
  apply bind_ok in HR as ([] & s4 & H4 & HR). assert (H40 := H4). apply (skip_ws_ok r) in H4 as (A4 & w4 & Q4 & L4); [|apply D3].
  apply bind_ok in HR as (after & s6 & H5 & HR). apply src_ok in H5 as [-> ->].
  apply bind_ok in HR as (un & s6 & H5 & HR). unfold has_unclosed_line_comment in H5. injection H5 as <- <-.
  match goal with H : (if ?b then _ else _) _ = _ |- _ => destruct b eqn:UN; [now apply fail_ok in H|] end.
  apply bind_ok in HR as (ron' & s6 & H5 & HR). unfold slice_before in H5. destruct (Nat.leb _ _); [|discriminate]. apply of_slice_ok in H5 as [_ ->].
  destruct (from_str opts_default any_value ron'); try discriminate HR. apply ret_ok in HR as [_ <-].
  rewrite RS in *. assert (LW : last_ws s <> None) by (destruct (last_ws s); [discriminate|discriminate UN]).
  destruct (proj2 (any_value_ok (ext s2) false) r s2 x s3 (adv_inv _ _ _ A2) RD2 eq_refl) as (_ & t0 & w0 & d0 & Q0 & _ & HV0 & _); [rewrite (adv_nt _ _ _ A2); exact N1|exact H3|].
  assert (N2 : rest s2 <> []) by (rewrite Q0; apply app_nonempty_l; eapply vacc_nonempty; eauto). clear t0 w0 d0 Q0 HV0.
  assert (NR : rest s1 <> []) by (rewrite Q2; now apply app_nonempty_r).
  destruct LA as [LW0 AT]; [now rewrite <- R1|]. apply lay_solid in L2; [|exact N2].
  assert (S2 : solid (rest s2)).
  { apply skip_ws_sound in H20 as (w0 & _ & [[_ S]|[N _]]); [exact S|contradiction]. }
  assert (B : b = [] /\ y = exts_empty).
  { destruct AT as [|ta ea wa a' e' HT LWA HA]; [auto|exfalso]. destruct RD1 as (p & QP & [[? _]|[_ LP]]); [contradiction|].
    destruct (attr_text_head ta ea ((wa ++ a') ++ w2 ++ rest s2) HT) as [u0 QH].
    assert (Q : (p ++ w2) ++ rest s2 = w ++ (c_hash :: u0)).
    { rewrite <- QH. rewrite PW, QT, <- R1, Q2 in QP. rewrite <- app_assoc, <- QP. flat. reflexivity. }
    apply layout_then in Q; [|now apply layout_app|exact S2|exact LW0|apply hash_solid].
    rewrite <- QH in Q. apply (f_equal (@length char)) in Q. rewrite !app_length in Q.
    destruct (attr_text_head ta ea [] HT) as [u1 Q1]. rewrite app_nil_r in Q1. rewrite Q1 in Q. cbn [length] in Q. lia. }
  destruct B as [-> ->].
  assert (P2 : Verif.Exact.plain s2). { split; [rewrite (adv_nt _ _ _ A2); assumption|]. rewrite (adv_ext _ _ _ A2), E1. split; reflexivity. }
  assert (F3 : final_layout (rest s3)) by (rewrite Q4, app_nil_r; eapply lay_final; exact L4).
  destruct (value_exact r s2 x s3 (adv_inv _ _ _ A2) P2 RD2 H3 (TypedRead.final_delim _ F3)) as (t & w3 & d & Q & LA3 & TR & NW & HV & TI & EM).
  rewrite (adv_ext _ _ _ A2), E1 in HV. rewrite (adv_lim _ _ _ A2), L1 in EM. exists t, x, d. split; [|auto].
  exists (w ++ w2), (w3 ++ rest s3). split; [now apply layout_app|]. split; [|rewrite QT, <- R1, Q2, Q; flat; reflexivity].
  destruct (rest s3) as [|c3 r3] eqn:R3.
  - rewrite app_nil_r. destruct TR as [[-> _]|(_ & _ & TR)]; [constructor|]. apply TR.
    unfold skip_ws in H40. unfold bind at 1, modify in H40. unfold bind at 1, src in H40. rewrite track_ws_rest, R3 in H40. injection H40 as <-.
    unfold track_ws in LW. destruct (last_ws s3) as [l|] eqn:QL; [discriminate|]. congruence.
  - apply layout_app; [eapply lay_cons; exact LA3|]. rewrite <- R3 in *. eapply (skip_ws_closed r s3 s); [apply D3|right; rewrite R3; discriminate|exact H40|now rewrite RS, app_nil_r|exact LW].
Qed.

Lemma document_wp {A} o (m : M A) w0 at0 e body (P : A -> Prop) : layout w0 -> attrs_text at0 e -> value_start body ->
  (forall T s, inv T s -> Keep.ready s -> rest s = body -> ext s = exts_or e (o_exts o) -> nt s = false -> lim s = o_limit o ->
     wp m (fun a' s' => P a' /\ final_layout (rest s') /\ inv T s') (fun _ _ => False) s) ->
  exists a, P a /\ options_from_str o m (w0 ++ at0 ++ body) = RValue a.
Proof.
  intros L HA V HM. set (text := w0 ++ _).
  assert (W : wp (document o m) (fun a' _ => P a') (fun _ _ => False) (init_state text)).
  { unfold document. apply wp_bind. assert (W0 := wp_parser_new w0 at0 e body text (init_state text) L HA V (inv_init text) eq_refl).
    Transparent wp. unfold wp in W0. Opaque wp. destruct (parser_new (init_state text)) as [[] s1| | |] eqn:H; try contradiction.
    assert (RD := parser_new_ready _ _ _ H). destruct W0 as (I1 & E1 & X1 & N1 & L1 & D1).
    Transparent wp. unfold wp at 1. rewrite H. Opaque wp. apply wp_bind, wp_modify.
    apply wp_bind. eapply wp_conseq; [apply (HM text)| |auto].
    - exact I1.
    - exact RD.
    - exact E1.
    - cbn. rewrite X1. cbn. now rewrite exts_empty_or.
    - exact N1.
    - reflexivity.
    - cbn beta. intros a' s2 (PA & E2 & I2). apply wp_bind.
      eapply wp_conseq; [eapply wp_doc_end; [eassumption|reflexivity|eassumption]| |auto]. cbn beta. intros _ s3 _. now apply wp_ret. }
  unfold options_from_str, from_str, spanned. Transparent wp. unfold wp in W. Opaque wp.
  destruct (document o m (init_state text)) as [a s| | |]; try contradiction. eauto.
Qed.

Lemma typedr_plain tenv rn v : forall T, typedr tenv float_val T v -> Forall (raw_ok rn) (raws v) -> plainr float_val rn v.
Proof.
  induction v as [v F|v IH|n v IH|l IH|l IH|n l IH|l IH|n l IH|n k v IH|n k l IH|n k l IH] using val_ind';
    intros T HT HR; destruct (peelr tenv float_val T _ HT) as (_ & T' & NR & HT' & _); clear HT; cbn [plainr raws] in *.
  - assert (P : (forall r, v <> VRaw r) -> Repr.plain float_val v).
    { intros NV. eapply typed_plain, typedr_flat; [exact HT'|exact F|exact NV]. }
    destruct v; try contradiction; try (apply P; discriminate). now inversion HR.
  - inversion HT'; subst; try contradiction. eapply IH; eassumption.
  - inversion HT'; subst; try contradiction. eapply IH; eassumption.
  - inversion HT'; subst; try contradiction. rewrite SerRepr.all_in in *. intros a IN.
    match goal with H : Forall (typedr _ _ _) _ |- _ => eapply Forall_forall in H; [|exact IN]; rename H into HA end.
    eapply IH; [exact IN|exact HA|]. apply Forall_forall. intros r IR. apply (proj1 (Forall_forall _ _) HR), in_concat. exists (raws a). split; [now apply in_map|exact IR].
  - inversion HT'; subst; try contradiction. match goal with H : Forall2 _ _ _ |- _ => rename H into F2 end. clear HT'.
    induction F2 as [|t v ts l HT F2 IHF]; [exact Logic.I|]. cbn [map concat] in HR. apply Forall_app in HR as [HR1 HR2].
    destruct IH as [I1 I2]. split; [eapply I1; eassumption|auto].
  - inversion HT'; subst; try contradiction. match goal with H : Forall2 _ _ _ |- _ => rename H into F2 end. clear HT'.
    induction F2 as [|t v ts l HT F2 IHF]; [exact Logic.I|]. cbn [map concat] in HR. apply Forall_app in HR as [HR1 HR2].
    destruct IH as [I1 I2]. split; [eapply I1; eassumption|auto].
  - inversion HT'; subst; try contradiction. rewrite SerRepr.all_in in *. intros a IN. destruct (IH a IN) as [I1 I2].
    match goal with H : Forall (fun kv => _ /\ _) _ |- _ => eapply Forall_forall in H; [|exact IN]; destruct H as [K1 K2] end.
    assert (HA : Forall (raw_ok rn) (raws (fst a) ++ raws (snd a))).
    { apply Forall_forall. intros r IR. apply (proj1 (Forall_forall _ _) HR), in_concat. exists (raws (fst a) ++ raws (snd a)). split; [now apply (in_map (fun kv => raws (fst kv) ++ raws (snd kv)))|exact IR]. }
    apply Forall_app in HA as [A1 A2]. split; [eapply I1|eapply I2]; eassumption.
  - inversion HT'; subst; try contradiction. rewrite SerRepr.all_in in *. intros a IN.
    match goal with H : Forall (fun fv => exists t, _) _ |- _ => eapply Forall_forall in H; [|exact IN]; destruct H as (t & _ & HA) end.
    eapply IH; [exact IN|exact HA|]. apply Forall_forall. intros r IR. apply (proj1 (Forall_forall _ _) HR), in_concat. exists (raws (snd a)). split; [now apply (in_map (fun kv => raws (snd kv)))|exact IR].
  - inversion HT'; subst; try contradiction. eapply IH; eassumption.
  - inversion HT'; subst; try contradiction. match goal with H : Forall2 _ _ _ |- _ => rename H into F2 end. clear HT'. match goal with H : In _ _ |- _ => clear H end.
    induction F2 as [|t v ts l HT F2 IHF]; [exact Logic.I|]. cbn [map concat] in HR. apply Forall_app in HR as [HR1 HR2].
    destruct IH as [I1 I2]. split; [eapply I1; eassumption|auto].
  - inversion HT'; subst; try contradiction. rewrite SerRepr.all_in in *. intros a IN.
    match goal with H : Forall (fun fv => exists t, _) _ |- _ => eapply Forall_forall in H; [|exact IN]; destruct H as (t & _ & HA) end.
    eapply IH; [exact IN|exact HA|]. apply Forall_forall. intros r IR. apply (proj1 (Forall_forall _ _) HR), in_concat. exists (raws (snd a)). split; [now apply (in_map (fun kv => raws (snd kv)))|exact IR].
Qed.

(** What is written for a value with raw values in it, each of which is a
    document by itself, is read back to a value that is the same but for layout
    around the raw values. *)
Theorem C28_embedded {FO : FloatOk E} tenv o cfg T v text rn :
  valid_config cfg -> ranges_ok (extensions o cfg) cfg false v ->
  x_unwrap_variant_newtypes (extensions o cfg) = false ->
  typedr tenv float_val T v -> Forall (fun r => (rn r <= 128)%nat /\ alone (rn r) r) (raws v) ->
  room (needr rn v) (o_limit o) -> to_string o cfg v = inl text ->
  exists n, forall f, (n <= f)%nat -> exists v', alike v v' /\ options_from_str o (de_ty tenv f T) text = RValue v'.
Proof.
  intros VC CR OU HT HR RM TS.
  assert (PL : plainr float_val rn v).
  { eapply typedr_plain; [exact HT|]. eapply Forall_impl; [|exact HR]. intros r [LE AL]. split; [exact LE|]. now apply alone_ok. }
  destruct (to_string_okr o cfg VC OU tenv float_val (fun k b H => H) rn v text PL CR TS) as (a & x & w & t & w' & -> & HA & EX & L & L' & [O OK]).
  destruct (OK T HT) as (n & H). exists n. intros f LF. specialize (H f LF).
  assert (G : forall w0 a0, layout w0 -> attrs_text a0 x -> exists v', alike v v' /\ options_from_str o (de_ty tenv f T) (w0 ++ a0 ++ t ++ w') = RValue v').
  { intros w0 a0 L0 A0. eapply document_wp; [exact L0|exact A0|apply opens_value_start, O|]. intros TX s I RD RS ES NS LS.
    eapply wp_conseq; [apply (H TX s w' []); [exact Logic.I|exists w'; rewrite app_nil_r; auto|exact I|exact RD|exact RS|congruence|exact NS|now rewrite LS]| |auto].
    cbn beta. intros v' s' (AL & (w1 & L1 & R1) & I' & _). split; [exact AL|]. split; [rewrite R1, app_nil_r; now left|exact I']. }
  destruct (attrs_layout a x w HA L) as [-> |AT].
  - specialize (G w [] L). cbn [app] in *. apply G. exact HA.
  - specialize (G [] (a ++ w) l_nil AT). cbn [app] in G. rewrite <- app_assoc in G. exact G.
Qed.
(** in particular those that the constructor accepts and that have no attributes *)
Theorem C28_from_ron {FO : FloatOk E} tenv o cfg T v text :
  valid_config cfg -> ranges_ok (extensions o cfg) cfg false v ->
  x_unwrap_variant_newtypes (extensions o cfg) = false ->
  typedr tenv float_val T v -> Forall (fun r => raw_from_ron r = RValue r /\ no_attrs r) (raws v) ->
  room (needr (fun _ => 128%nat) v) (o_limit o) -> to_string o cfg v = inl text ->
  exists n, forall f, (n <= f)%nat -> exists v', alike v v' /\ options_from_str o (de_ty tenv f T) text = RValue v'.
Proof.
  intros VC CR OU HT HR. apply C28_embedded; auto. eapply Forall_impl; [|exact HR]. intros r [H NA]. split; [lia|now apply from_ron_alone].
Qed.
(** and those that were read out of another document, as [C26_document] has them *)
Theorem C28_read tenv n f text r : no_attrs text -> options_from_str (Opts exts_empty (Some n)) (de_ty tenv (Datatypes.S f) TRaw) text = RValue (VRaw r) -> alone n r.
Proof.
  intros NA H. assert (H0 := H). apply C26_document in H0 as (b & r' & Q & QT & HB & _). injection Q as <-. rewrite (HB NA) in QT. cbn in QT. subst r. exact H.
Qed.
End Proofs.
Print Assumptions C28_embedded.
Print Assumptions C28_from_ron.
Print Assumptions C28_read.

(** ** Examples *)
#[local] Existing Instance Toy.
#[local] Existing Instance toy_xid.
#[local] Existing Instance toy_float.
Definition raw_in_map : val := VStruct (lit "R") [(lit "a", VSome (VRaw (lit " /* x */ (b: [1, 2]) ") )); (lit "m", VMap [(VRaw (lit "'k'"), VTuple [VRaw (lit "()"); VBool true])])].
Definition raw_in_map_ty : ty := TStruct false (lit "R") [(lit "a", TOption TRaw); (lit "m", TMap TRaw (TTuple [TRaw; TBool]))].
Example C28_ex_typed : typedr (fun _ => TUnit) float_val raw_in_map_ty raw_in_map.
Proof.
  apply yr_struct; [repeat constructor; cbn; intuition discriminate|reflexivity|].
  constructor; [exists (TOption TRaw); split; [now left|]; apply yr_some, yr_raw|].
  constructor; [|constructor]. exists (TMap TRaw (TTuple [TRaw; TBool])). split; [right; now left|]. apply yr_map. constructor; [|constructor].
  split; [apply yr_raw|]. apply yr_tuple. constructor; [apply yr_raw|]. constructor; [|constructor]. apply yr_flat; [exact Logic.I|constructor].
Qed.
Example C28_ex_alone : Forall (fun r => (5 <= 128)%nat /\ alone 5 r) (raws raw_in_map).
Proof. repeat (constructor; [split; [lia|vm_compute; reflexivity]|]). constructor. Qed.
Example C28_ex_from_ron : Forall (fun r => raw_from_ron r = RValue r /\ no_attrs r) (raws raw_in_map).
Proof. repeat (constructor; [split; [vm_compute; reflexivity|apply no_hash; vm_compute; intuition discriminate]|]). constructor. Qed.
Example C28_ex_room : room (needr (fun _ => 5%nat) raw_in_map) (o_limit opts_default).
Proof. vm_compute. lia. Qed.
(** the layout around them grows *)
Example C28_ex_read : exists text, to_string opts_default (Some pconf_default) raw_in_map = inl text /\
  options_from_str opts_default (de_ty (fun _ => TUnit) 4 raw_in_map_ty) text = RValue (VStruct (lit "R")
   [(lit "a", VSome (VRaw (lit " /* x */ (b: [1, 2]) "))); (lit "m", VMap [(VRaw ([10] ++ lit "        'k'"), VTuple [VRaw (lit "()"); VBool true])])]).
Proof. eexists. split; [vm_compute; reflexivity|]. vm_compute. reflexivity. Qed.
(** with compact_ranges: a range of numbers is written as one, a range of raw
    values as a struct without its name *)
Definition compact : option pconf :=
  Some (PConf None [10] [32;32;32;32] [32] false false false exts_empty false true false false false None true).
Definition raw_ranges : val := VTuple [VStruct s_Range [(s_start, VInt U8 1); (s_end, VInt U8 5)]; VStruct s_Range [(s_start, VRaw (lit "1")); (s_end, VRaw (lit "5"))]].
Definition raw_ranges_ty : ty := TTuple [TStruct true s_Range [(s_start, TInt U8); (s_end, TInt U8)]; TStruct true s_Range [(s_start, TRaw); (s_end, TRaw)]].
Example C28_ex_ranges : typedr (fun _ => TUnit) float_val raw_ranges_ty raw_ranges /\ ranges_ok (extensions opts_default compact) compact false raw_ranges /\
  Forall (fun r => (5 <= 128)%nat /\ alone 5 r) (raws raw_ranges) /\ room (needr (fun _ => 5%nat) raw_ranges) (o_limit opts_default) /\
  to_string opts_default compact raw_ranges = inl (lit "(1..5, (
    start: 1,
    end: 5,
))") /\
  options_from_str opts_default (de_ty (fun _ => TUnit) 4 raw_ranges_ty) (lit "(1..5, (
    start: 1,
    end: 5,
))") = RValue (VTuple [VStruct s_Range [(s_start, VInt U8 1); (s_end, VInt U8 5)]; VStruct s_Range [(s_start, VRaw (lit " 1")); (s_end, VRaw (lit " 5"))]]).
Proof.
  assert (ND : forall T, NoDup (map fst [(s_start, T); (s_end, T : ty)])) by (intros T; repeat constructor; cbn; intuition discriminate).
  split; [|split; [|split; [|split; [vm_compute; lia|split; vm_compute; reflexivity]]]].
  - apply yr_tuple. constructor; [|constructor; [|constructor]].
    + apply yr_struct; [apply ND|reflexivity|]. constructor; [|constructor; [|constructor]]; (eexists; split; [cbn; auto|]; apply yr_flat; [exact Logic.I|apply ty_int; reflexivity]).
    + apply yr_struct; [apply ND|reflexivity|]. constructor; [|constructor; [|constructor]]; (eexists; split; [cbn; auto|]; apply yr_raw).
  - intros _. cbn. split; [split; [intros [] t f H; [now right|left; destruct H; reflexivity]|auto]|]. split; [|exact Logic.I]. auto.
  - repeat (constructor; [split; [lia|vm_compute; reflexivity]|]). constructor.
Qed.
(** with implicit_some: explicit Somes around the raw values only *)
Definition implicit_opts : opts := Opts (Exts true true false false) (Some 128%nat).
Definition raw_some_ty : ty := TTuple [TOption (TOption TRaw); TOption (TNewtype (lit "N") (TOption TRaw)); TOption (TTuple [TOption TBool; TRaw])].
Definition raw_some : val := VTuple [VSome (VSome (VRaw (lit "None"))); VSome (VNewtype (lit "N") (VSome (VRaw (lit " 1 ")))); VSome (VTuple [VSome (VBool true); VRaw (lit "Some(2)")])].
Example C28_ex_implicit : typedr (fun _ => TUnit) float_val raw_some_ty raw_some /\ x_implicit_some (extensions implicit_opts None) = true /\
  Forall (fun r => (5 <= 128)%nat /\ alone 5 r) (raws raw_some) /\ room (needr (fun _ => 5%nat) raw_some) (o_limit implicit_opts) /\
  to_string implicit_opts None raw_some = inl (lit "(Some(Some(None)),Some(Some( 1 )),(true,Some(2)))") /\
  options_from_str implicit_opts (de_ty (fun _ => TUnit) 6 raw_some_ty) (lit "(Some(Some(None)),Some(Some( 1 )),(true,Some(2)))") = RValue raw_some.
Proof.
  split; [|split; [reflexivity|split; [|split; [vm_compute; lia|split; vm_compute; reflexivity]]]].
  - apply yr_tuple. constructor; [apply yr_some, yr_some, yr_raw|]. constructor; [apply yr_some, yr_newtype, yr_some, yr_raw|]. constructor; [|constructor].
    apply yr_some, yr_tuple. constructor; [apply yr_some, yr_flat; [exact Logic.I|constructor]|]. constructor; [apply yr_raw|constructor].
  - repeat (constructor; [split; [lia|vm_compute; reflexivity]|]). constructor.
Qed.
