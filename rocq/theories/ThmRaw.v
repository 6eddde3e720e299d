(** C26, C27, C28: raw values. *)
From Coq Require Import String Ascii NArith ZArith Lia Bool List.
From Coq Require Import ZifyBool ZifyNat ZifyN.
From Verif Require Import Base Facts Value Data Parse De Span Ser Raw Wp EnvOk LexSafe DeSafe Layout LexWs Lit Attr Inv LexSound Repr Accept
  Pieces Sound DocSafe DocRead DocSound Keep SerRaw RawRead RawSpec RawMain Toy.
Import ListNotations.
Open Scope N_scope.
Open Scope list_scope.
Open Scope m_scope.

Section Proofs.
Context {E : Env} {X : XidOk E}.

(** ** Reading *)
(** the text from the end of the last token to the beginning of the next one *)
Lemma de_raw_text T s r s' : inv T s -> de_raw s = Ok r s' ->
  pre_ws s = r ++ rest s' /\ (rest s' = [] \/ solid (rest s')).
Proof.
  intros I H1. assert (D0 : dok T s s').
  { assert (W := safe_de_raw T (fun _ => True) s I Logic.I). Transparent wp. unfold wp in W. Opaque wp. now rewrite H1 in W. }
  unfold de_raw in H1. apply bind_ok in H1 as (before & s2 & H2 & H1). injection H2 as <- <-.
  apply bind_ok in H1 as (u & s2 & H2 & H1). apply bind_ok in H1 as (x & s3 & H3 & H1).
  apply bind_ok in H1 as (u' & s4 & H4 & H1). apply bind_ok in H1 as (after & s5 & H5 & H1). apply src_ok in H5 as [-> ->].
  apply bind_ok in H1 as (un & s5 & H5 & H1). unfold has_unclosed_line_comment in H5. injection H5 as <- <-.
  match goal with H : (if ?b then _ else _) _ = _ |- _ => destruct b; [now apply fail_ok in H|] end.
  apply bind_ok in H1 as (ron' & s5 & H5 & H1). unfold slice_before in H5.
  destruct (Nat.leb _ _); [|discriminate]. apply of_slice_ok in H5 as [B ->].
  destruct (from_str opts_default any_value ron'); try discriminate H1. apply ret_ok in H1 as [<- <-].
  assert (HP : suf (rest s) (pre_ws s)) by apply I.
  assert (HS : suf (rest s') (pre_ws s)).
  { eapply suf_trans; [|exact HP]. apply D0. }
  destruct HS as [p Hp]. rewrite Hp, blen_app, Nat.add_sub, btake_app in B. injection B as <-.
  split; [exact Hp|]. destruct u'. apply skip_ws_sound in H4 as (w & _ & [[_ S]|[N _]]); auto.
Qed.

(** C26: the raw value a document holds is the document itself, from the end of
    the attributes on *)
Theorem C26_document tenv o f text v : options_from_str o (de_ty tenv f TRaw) text = RValue v ->
  exists b r, v = VRaw r /\ text = b ++ r /\ (no_attrs text -> b = []) /\
    exists w a x p, layout w /\ attrs_text a x /\ w ++ a = b ++ p /\ layout p.
Proof.
  intros H. assert (H0 := H). apply document_sound in H0 as (w & a & x & t & w' & d & QT & L & AT & AC & _).
  assert (NE : t <> []) by (eapply acc_nonempty; eauto).
  apply typed_whole in H as (s & H & _ & FL). unfold DocSafe.head in H.
  apply bind_ok in H as (u & s1 & H1 & H). assert (RD := parser_new_ready _ _ _ H1). assert (PP := fun NA => parser_new_pre _ _ _ H1 NA).
  apply parser_new_ok in H1 as (I1 & _ & HN & w1 & a1 & x1 & Q1 & _ & HA).
  apply bind_ok in H as (u' & s2 & H2 & H). apply modify_ok in H2.
  assert (N1 : rest s1 <> []).
  { destruct (proj2 (de_ty_ok (ext s2) tenv f false TRaw) text s2 v s) as (_ & t' & w2 & d' & Q & _ & HV & _);
      [subst s2; exact I1|subst s2; exact RD|reflexivity|subst s2; exact HN|exact H|].
    assert (NT : t' <> []) by (eapply acc_nonempty; eauto). subst s2. cbn [rest set_lim set_ext] in Q. rewrite Q. now apply app_nonempty_l. }
  destruct f as [|f]; [discriminate|]. cbn [de_ty de_step] in H. apply bind_ok in H as (r & s3 & H & H3). apply ret_ok in H3 as [-> <-].
  assert (I2 : inv text s2) by (subst s2; exact I1).
  destruct (HA N1) as [LW AX]. clear HA.
  assert (PT : suf (pre_ws s1) text) by apply I1. destruct PT as [b PB].
  assert (DR := de_raw_text _ _ _ _ I2 H). destruct DR as [DR SR].
  assert (P2 : pre_ws s2 = pre_ws s1) by (subst s2; reflexivity).
  assert (RS : rest s = []).
  { destruct SR as [SR|SR]; [exact SR|]. destruct (rest s) as [|c rs] eqn:QR; [reflexivity|exfalso]. eapply solid_final; eassumption. }
  rewrite RS, app_nil_r in DR. exists b, r. split; [reflexivity|]. split; [rewrite PB; congruence|].
  split; [intros NA; specialize (PP NA); rewrite PP in PB; destruct b as [|c b]; [reflexivity|]; apply (f_equal (@length char)) in PB; rewrite app_length in PB; cbn in PB; lia|].
  destruct RD as (p & QP & CP). exists w1, a1, x1, p. split; [exact LW|]. split; [exact AX|]. split.
  - rewrite PB, QP in Q1. rewrite !app_assoc in Q1. apply app_inv_tail in Q1. now rewrite <- Q1.
  - destruct CP as [[Q _]|[_ L']]; [contradiction|exact L'].
Qed.

(** wherever a raw value is read in the middle of a document, it is the text
    from the end of the token before it ([p] is the layout in between) to the
    beginning of the token after it; the value itself is spelled [t] in it *)
Theorem C26_inside tenv f text s v s' : inv text s -> ready s -> nt s = false -> de_ty tenv f TRaw s = Ok v s' ->
  exists r b p w t w', v = VRaw r /\ text = b ++ r ++ rest s' /\ rest s = w ++ t ++ w' ++ rest s' /\
    r = p ++ w ++ t ++ w' /\ layout p /\ layout w /\ (layout w' \/ (rest s' = [] /\ final_layout w')) /\
    (rest s' = [] \/ solid (rest s')) /\ exists x d, vacc (ext s) false x t d.
Proof.
  intros I RD HN H. destruct f as [|f]; [discriminate|]. cbn [de_ty de_step] in H. apply bind_ok in H as (r & s3 & H & H3). apply ret_ok in H3 as [-> <-].
  destruct (de_raw_text _ _ _ _ I H) as [P S]. assert (PT : suf (pre_ws s) text) by apply I. destruct PT as [b PB].
  unfold de_raw in H. apply bind_ok in H as (before & s2 & H2 & H1). injection H2 as <- <-.
  apply bind_ok in H1 as (u & s2 & H2 & H1). assert (RD2 := skip_ws_ready _ _ _ (ready_tracked _ RD) H2). apply skip_ws_ok with (T := text) in H2 as (A2 & w & Q2 & L2); [|exact I].
  apply bind_ok in H1 as (x & s3 & H3 & H1).
  apply (proj2 (any_value_ok (ext s) false) text) in H3 as (D3 & t & w3 & d & Q3 & L3 & HV & HD);
    [|apply A2|exact RD2|apply (adv_ext _ _ _ A2)|rewrite (adv_nt _ _ _ A2); assumption].
  apply bind_ok in H1 as (u' & s4 & H4 & H1). apply skip_ws_ok with (T := text) in H4 as (A4 & w4 & Q4 & L4); [|apply D3].
  apply bind_ok in H1 as (after & s5 & H5 & H1). apply src_ok in H5 as [-> ->].
  apply bind_ok in H1 as (un & s5 & H5 & H1). unfold has_unclosed_line_comment in H5. injection H5 as <- <-.
  match goal with H : (if ?b then _ else _) _ = _ |- _ => destruct b; [now apply fail_ok in H|] end.
  apply bind_ok in H1 as (ron' & s5 & H5 & H1). unfold slice_before in H5.
  destruct (Nat.leb _ _); [|discriminate]. apply of_slice_ok in H5 as [_ ->].
  destruct (from_str opts_default any_value ron'); try discriminate H1. apply ret_ok in H1 as [_ <-].
  rewrite Q4 in L3. assert (L : lay (w3 ++ w4) (rest s')) by now apply lay_app.
  assert (NE : t <> []) by (eapply vacc_nonempty; eauto).
  assert (N2 : rest s2 <> []) by (rewrite Q3; now apply app_nonempty_l).
  assert (N1 : rest s <> []) by (rewrite Q2; now apply app_nonempty_r).
  destruct RD as (p & Hp & [[? _]|[_ LP]]); [contradiction|].
  exists r, b, p, w, t, (w3 ++ w4). split; [reflexivity|]. split; [now rewrite PB, P|].
  split; [rewrite Q2, Q3, Q4; flat; reflexivity|]. split.
  - rewrite Hp, Q2, Q3, Q4 in P. apply app_inv_tail with (l := rest s'). rewrite <- P. flat. reflexivity.
  - split; [assumption|]. split; [now apply lay_solid with (rest s2)|]. split; [exact L|]. eauto.
Qed.

(** every raw value in what a document denotes is a stretch of the document *)
Theorem C26_read_pieces tenv o f T text v : options_from_str o (de_ty tenv f T) text = RValue v -> each_raw (fun r => piece text r /\ accepted r) v.
Proof.
  intros H. apply typed_whole in H as (s & H & _ & _). unfold DocSafe.head in H.
  apply bind_ok in H as (u & s1 & H1 & H). apply parser_new_ok in H1 as (I1 & _).
  apply bind_ok in H as (u' & s2 & H2 & H). apply modify_ok in H2.
  assert (I2 : inv text s2) by (subst s2; exact I1). eapply gives_ok; [apply gives_ty|exact I2|exact H].
Qed.

(** ** Writing *)
(** whatever the options and the configuration, a raw value is written as it is,
    wherever it stands *)
Theorem C26_written_pieces o cfg v out : to_string o cfg v = inl out -> each_raw (piece out) v.
Proof. apply written_raws. Qed.
Theorem C26_written o r : o_limit o <> Some O -> to_string o None (VRaw r) = inl r.
Proof.
  intros N. unfold to_string, to_writer. unfold sbind at 1. cbn [ser_new sret]. cbn [ser]. unfold ser_raw.
  unfold sbind, sget, smod, sguard, write, ser_init. cbn. destruct (o_limit o) as [[|l]|]; [contradiction|cbn|cbn]; reflexivity.
Qed.

(** a document that is one value, read as a raw value and written again *)
Theorem C26_round_trip tenv o f o' text v : no_attrs text -> o_limit o' <> Some O ->
  options_from_str o (de_ty tenv f TRaw) text = RValue v ->
  v = VRaw text /\ to_string o' None v = inl text.
Proof.
  intros NA N H. apply C26_document in H as (b & r & -> & Q & HB & _). rewrite (HB NA) in Q. cbn in Q. subst r. split; [reflexivity|].
  now apply C26_written.
Qed.
(** what [RawValue::from_ron] keeps is the text it is given *)
Theorem C26_from_ron text r : raw_from_ron text = RValue r -> r = text.
Proof.
  unfold raw_from_ron, spanned. match goal with |- match ?m with _ => _ end = _ -> _ => destruct m as [a s|x s| |] eqn:H end; intros Q; try discriminate.
  - injection Q as <-. repeat (apply bind_ok in H as (? & ? & _ & H)). destruct (negb _) in H; [now apply fail_ok in H|].
    repeat (apply bind_ok in H as (? & ? & _ & H)). now apply ret_ok in H as [-> _].
  - now destruct (span_error text s).
Qed.

(** ** Trimming *)
Lemma attrs_layout a e w : attrs_text a e -> layout w -> a = [] \/ attrs_text (a ++ w) e.
Proof.
  intros H L. induction H as [|t e w0 a e' H L0 HA IH]; [now left|right]. destruct IH as [-> |IH].
  - rewrite app_nil_r, <- app_assoc. 
    assert (Q := as_cons t e (w0 ++ w) [] e' H (layout_app _ _ L0 L) HA). now rewrite app_nil_r in Q.
  - rewrite <- !app_assoc. now constructor.
Qed.
Lemma end_final T s s1 : inv T s -> de_end s = Ok tt s1 -> final_layout (rest s).
Proof.
  intros I H. unfold de_end in H. apply bind_ok in H as (u & s2 & H2 & H). apply (skip_ws_ok T) in H2 as (A2 & w & Q & L); [|assumption].
  apply bind_ok in H as (r & s3 & H3 & H). apply src_ok in H3 as [-> ->]. destruct (rest s2); [|discriminate]. rewrite app_nil_r in Q. rewrite Q. eapply lay_final, L.
Qed.
Lemma empty_exts e : exts_is_empty e = true -> e = exts_empty.
Proof. destruct e as [[] [] [] []]; cbn; intros; discriminate || reflexivity. Qed.

Lemma from_ron_good ron r : raw_from_ron ron = RValue r -> exists x t, good_raw ron x t.
Proof.
  unfold raw_from_ron, spanned. match goal with |- match ?m with _ => _ end = _ -> _ => destruct m as [a s|x s| |] eqn:H end; intros Q; try discriminate; [|destruct (span_error ron s); discriminate].
  clear Q. unfold deserializer_new in H. apply bind_ok in H as (u & s1 & H1 & H). apply bind_ok in H1 as (u' & s0 & H0 & H1). apply modify_ok in H1.
  assert (RD0 := parser_new_ready _ _ _ H0). apply parser_new_ok in H0 as (I0 & _ & N0 & w & b & y & QT & E0 & LA).
  assert (I1 : inv ron s1) by (subst s1; exact I0). assert (RD1 : Keep.ready s1) by (subst s1; exact RD0). assert (R1 : rest s1 = rest s0) by (subst s1; reflexivity).
  assert (N1 : nt s1 = false) by (subst s1; exact N0). assert (L1 : lim s1 = Some 128%nat) by (subst s1; reflexivity).
  assert (E1 : ext s1 = y) by (subst s1; cbn; rewrite E0; apply exts_or_empty). clear H1.
  apply bind_ok in H as (z & s1' & H2 & H). apply get_ok in H2 as [-> ->]. destruct (negb _) eqn:EE in H; [now apply fail_ok in H|].
  apply negb_false_iff, empty_exts in EE. rewrite EE in E1. subst y.
  apply bind_ok in H as (r' & s4 & HR & H). apply bind_ok in H as ([] & s5 & HE & _).
  unfold de_raw in HR. apply bind_ok in HR as (before & s2 & H2 & HR). injection H2 as <- <-.
  apply bind_ok in HR as ([] & s2 & H2 & HR). assert (RD2 := skip_ws_ready _ _ _ (ready_tracked _ RD1) H2). apply (skip_ws_ok ron) in H2 as (A2 & w2 & Q2 & L2); [|exact I1].
  apply bind_ok in HR as (x & s3 & H3 & HR). assert (D3 := any_value_dok ron s2 x s3 (adv_inv _ _ _ A2) H3).
  apply bind_ok in HR as ([] & s3' & H4 & HR). apply (skip_ws_ok ron) in H4 as (A4 & w4 & Q4 & L4); [|apply D3].
  apply bind_ok in HR as (after & s6 & H5 & HR). apply src_ok in H5 as [-> ->].
  apply bind_ok in HR as (un & s6 & H5 & HR). unfold has_unclosed_line_comment in H5. injection H5 as <- <-.
  match goal with H : (if ?b then _ else _) _ = _ |- _ => destruct b; [now apply fail_ok in H|] end.
  apply bind_ok in HR as (ron' & s6 & H5 & HR). unfold slice_before in H5. destruct (Nat.leb _ _); [|discriminate]. apply of_slice_ok in H5 as [_ ->].
  destruct (from_str opts_default any_value ron'); try discriminate HR. apply ret_ok in HR as [_ ->].
  assert (F3 : final_layout (rest s3)). { rewrite Q4. apply lay_final_app; [exact L4|]. apply (end_final ron s3' s5 (adv_inv _ _ _ A4) HE). }
  assert (P2 : Verif.Exact.plain s2). { split; [rewrite (adv_nt _ _ _ A2); assumption|]. rewrite (adv_ext _ _ _ A2), EE. split; reflexivity. }
  destruct (value_exact ron s2 x s3 (adv_inv _ _ _ A2) P2 RD2 H3 (TypedRead.final_delim _ F3)) as (t & w3 & d & Q & LA3 & TR & NW & HV & TI & EM).
  rewrite (adv_ext _ _ _ A2), EE in HV. rewrite (adv_lim _ _ _ A2), L1 in EM. exists x, t.
  assert (NE : t <> []) by (eapply vacc_nonempty; eauto).
  assert (N2 : rest s2 <> []) by (rewrite Q; now apply app_nonempty_l).
  destruct LA as [LW AT]; [rewrite <- R1, Q2; now apply app_nonempty_r|].
  apply lay_solid in L2; [|exact N2]. rewrite <- R1, Q2, Q in QT. assert (FW : final_layout (w3 ++ rest s3)) by now apply lay_final_app.
  rewrite <- E1 in AT. destruct (attrs_layout b exts_empty w2 AT L2) as [-> |AT2].
  - exists (w ++ w2), [], (w3 ++ rest s3), d. split; [rewrite QT; flat; reflexivity|]. split; [now apply layout_app|]. split; [constructor|]. exact (conj FW (conj HV (conj TI EM))).
  - exists w, (b ++ w2), (w3 ++ rest s3), d. split; [rewrite QT; flat; reflexivity|]. exact (conj LW (conj AT2 (conj FW (conj HV (conj TI EM))))).
Qed.
Lemma accepted_good ron x s : from_str opts_default any_value ron = Ok x s -> no_attrs ron -> exists t, good_raw ron x t.
Proof.
  intros H NA. unfold from_str, document in H. apply bind_ok in H as (u & s0 & H0 & H). apply bind_ok in H as (u' & s1 & H1 & H). apply modify_ok in H1.
  assert (RD0 := parser_new_ready _ _ _ H0). apply parser_new_ok in H0 as (I0 & _ & N0 & w & b & y & QT & E0 & LA).
  assert (I1 : inv ron s1) by (subst s1; exact I0). assert (RD1 : Keep.ready s1) by (subst s1; exact RD0). assert (R1 : rest s1 = rest s0) by (subst s1; reflexivity).
  assert (N1 : nt s1 = false) by (subst s1; exact N0). assert (L1 : lim s1 = Some 128%nat) by (subst s1; reflexivity).
  assert (E1 : ext s1 = y) by (subst s1; cbn; rewrite E0; apply exts_or_empty). clear H1.
  apply bind_ok in H as (x' & s2 & H2 & H). apply bind_ok in H as ([] & s3 & H3 & H). apply ret_ok in H as [QX QS]. subst x'.
  assert (D2 := any_value_dok ron s1 x s2 I1 H2). assert (F2 := end_final ron s2 s3 (proj1 D2) H3).
  destruct (proj2 (any_value_ok (ext s1) false) ron s1 x s2 I1 RD1 eq_refl N1 H2) as (_ & t0 & w0 & d0 & Q0 & _ & HV0 & _).
  assert (NE : rest s1 <> []) by (rewrite Q0; apply app_nonempty_l; eapply vacc_nonempty; eauto).
  destruct LA as [LW AT]; [now rewrite <- R1|]. destruct AT as [|ta ea wa a' e' HT LWA HA].
  2:{ exfalso. destruct (attr_text_head ta ea ((wa ++ a') ++ rest s0) HT) as [u0 QH]. apply (NA w u0 LW). rewrite QT, <- QH. flat. reflexivity. }
  assert (P1 : Verif.Exact.plain s1) by (split; [assumption|]; rewrite E1; split; reflexivity).
  destruct (value_exact ron s1 x s2 I1 P1 RD1 H2 (TypedRead.final_delim _ F2)) as (t & w3 & d & Q & LA3 & TR & NW & HV & TI & EM).
  rewrite E1 in HV. rewrite L1 in EM. exists t, w, [], (w3 ++ rest s2), d. rewrite <- R1, Q in QT.
  split; [exact QT|]. split; [exact LW|]. split; [constructor|]. split; [now apply lay_final_app|]. exact (conj HV (conj TI EM)).
Qed.

(** trimming leaves the text of the value, nothing but layout (and attributes
    that enable nothing) being lost; the value is the same, and trimming again
    changes nothing *)
Lemma good_trim ron x t0 : good_raw ron x t0 ->
  exists w a t w', raw_trim ron = Some t /\ ron = w ++ a ++ t ++ w' /\ layout w /\ attrs_text a exts_empty /\ final_layout w' /\ trimmed t /\
    raw_into_rust any_value ron = RValue x /\ raw_into_rust any_value t = RValue x /\ raw_from_ron t = RValue t /\ raw_trim t = Some t.
Proof.
  intros G. destruct (trim_good _ _ _ G) as (t & HT & G2). assert (GV := good_value _ _ _ G2). assert (GS := good_value _ _ _ (good_self _ _ _ G2)).
  destruct (trim_tight _ _ _ G2) as [T1 T2]. destruct G2 as (w & a & w' & d & Q & L & A & F & HV & TI & EM).
  exists w, a, t, w'. repeat (split; [assumption || now apply tight_trimmed|]). assumption.
Qed.
Theorem C27_from_ron ron r : raw_from_ron ron = RValue r ->
  exists w a t w' x, raw_trim ron = Some t /\ ron = w ++ a ++ t ++ w' /\ layout w /\ attrs_text a exts_empty /\ final_layout w' /\ trimmed t /\
    raw_into_rust any_value ron = RValue x /\ raw_into_rust any_value t = RValue x /\ raw_from_ron t = RValue t /\ raw_trim t = Some t.
Proof.
  intros H. destruct (from_ron_good _ _ H) as (x & t0 & G). destruct (good_trim _ _ _ G) as (w & a & t & w' & HH). now exists w, a, t, w', x.
Qed.
(** without attributes it is exactly the layout that is lost; this is so of
    every raw value that is read out of a document *)
Theorem C27_trim ron : accepted ron -> no_attrs ron ->
  exists w t w' x, raw_trim ron = Some t /\ ron = w ++ t ++ w' /\ layout w /\ final_layout w' /\ trimmed t /\
    raw_into_rust any_value ron = RValue x /\ raw_into_rust any_value t = RValue x /\ raw_from_ron t = RValue t /\ raw_trim t = Some t.
Proof.
  intros (x & s & H) NA. destruct (accepted_good _ _ _ H NA) as (t0 & G). destruct (good_trim _ _ _ G) as (w & a & t & w' & HT & Q & L & A & HH).
  exists w, t, w', x. split; [assumption|]. destruct A as [|ta ea wa a' e' HA LWA HA']; [auto|].
  exfalso. destruct (attr_text_head ta ea ((wa ++ a') ++ t ++ w') HA) as [u0 QH]. apply (NA w u0 L). rewrite Q, <- QH. flat. reflexivity.
Qed.
(** a raw value out of which nothing but layout is trimmed *)
Definition trims ron : Prop := exists w t w' x, raw_trim ron = Some t /\ ron = w ++ t ++ w' /\ layout w /\ final_layout w' /\ trimmed t /\
  raw_into_rust any_value ron = RValue x /\ raw_into_rust any_value t = RValue x /\ raw_from_ron t = RValue t /\ raw_trim t = Some t.
Theorem C27_read tenv o f T text v : options_from_str o (de_ty tenv f T) text = RValue v -> each_raw trims v.
Proof.
  intros H. assert (H1 := C26_read_pieces _ _ _ _ _ _ H). apply document_sound in H as (w & a & x & t & w' & d & _ & _ & _ & AC & _).
  apply acc_no_attrs in AC. apply each_raw_raws in AC, H1. apply each_raw_raws. rewrite Forall_forall in *. intros r IN.
  apply C27_trim; [now apply H1|now apply AC].
Qed.
End Proofs.

#[local] Existing Instance Toy.
#[local] Existing Instance toy_xid.
Notation none := (fun _ : nat => TUnit).
Definition commented : str := lit " /* a */ (1, /* b */ 2) // c" ++ [10].
Example C26_ex_document : options_from_str opts_default (de_ty none 3 TRaw) commented = RValue (VRaw commented).
Proof. vm_compute. reflexivity. Qed.
Lemma no_hash text : ~ In c_hash text -> no_attrs text.
Proof. intros N w t _ ->. apply N. apply in_or_app. right. now left. Qed.
Example C26_ex_no_attrs : no_attrs commented.
Proof. apply no_hash. vm_compute. intuition discriminate. Qed.
Example C26_ex_attr : options_from_str opts_default (de_ty none 3 TRaw) (lit "#![enable(implicit_some)] [1 /* a */]") = RValue (VRaw (lit " [1 /* a */]")).
Proof. vm_compute. reflexivity. Qed.
(** inside a list, layout on both sides belongs to the raw value *)
Example C26_ex_list : options_from_str opts_default (de_ty none 3 (TSeq TRaw)) (lit "[ 1 , /* x */(a: 2) /* y */ ]") =
  RValue (VSeq [VRaw (lit " 1 "); VRaw (lit " /* x */(a: 2) /* y */ ")]).
Proof. vm_compute. reflexivity. Qed.
Example C26_ex_written : to_string opts_default (Some pconf_default) (VSeq [VRaw (lit " 1 "); VRaw (lit " /* x */(a: 2) /* y */ ")]) =
  inl (lit "[" ++ [10] ++ lit "     1 ," ++ [10] ++ lit "     /* x */(a: 2) /* y */ ," ++ [10] ++ lit "]").
Proof. vm_compute. reflexivity. Qed.
Example C26_ex_from_ron : raw_from_ron commented = RValue commented.
Proof. vm_compute. reflexivity. Qed.

Print Assumptions C26_document.
Print Assumptions C26_inside.
Print Assumptions C26_read_pieces.
Print Assumptions C26_written_pieces.
Print Assumptions C26_written.
Print Assumptions C26_round_trip.
Print Assumptions C26_from_ron.

(** C27 is false of a raw value that holds an attribute: trimming drops it.  The
    constructors refuse attributes that enable extensions, but not those that
    name a type or a schema. *)
Definition attr_raw : str := lit "#![type = ""x""] 42".
Theorem C27_trim_attribute_refuted : exists ron t, raw_from_ron ron = RValue ron /\ raw_trim ron = Some t /\
  ~ exists w w', final_layout w /\ ron = w ++ t ++ w'.
Proof.
  exists attr_raw, (lit "42"). split; [vm_compute; reflexivity|]. split; [vm_compute; reflexivity|].
  intros (w & w' & F & Q). destruct w as [|c w]; [discriminate|]. injection Q as <- _.
  eapply solid_final; [|exact F]. split; [reflexivity|discriminate].
Qed.
(** and a raw value made from a Rust value may nest too deeply to be read: the
    serializer counts a list as one level, the deserializer as two *)
Fixpoint deep (n : nat) : val := match n with O => VUnit | Datatypes.S n => VSeq [deep n] end.
Theorem C27_trim_panic_refuted : exists v ron, raw_from_rust v = inl ron /\ raw_trim ron = None.
Proof.
  exists (deep 65). eexists. split; [vm_compute; reflexivity|]. vm_compute. reflexivity.
Qed.

Example C27_ex_trim : raw_from_ron commented = RValue commented /\ raw_trim commented = Some (lit "(1, /* b */ 2)").
Proof. split; vm_compute; reflexivity. Qed.
Example C27_ex_read : options_from_str opts_default (de_ty none 3 (TSeq TRaw)) (lit "[ 1 , /* x */(a: 2) /* y */ ]") =
    RValue (VSeq [VRaw (lit " 1 "); VRaw (lit " /* x */(a: 2) /* y */ ")]) /\ raw_trim (lit " /* x */(a: 2) /* y */ ") = Some (lit "(a: 2)").
Proof. split; vm_compute; reflexivity. Qed.
Print Assumptions C27_from_ron.
Print Assumptions C27_trim.
Print Assumptions C27_read.

(** C28 is false of a raw value that holds an attribute ... *)
Theorem C28_attribute_refuted : exists ron out e sp, raw_from_ron ron = RValue ron /\
  to_string opts_default None (VTuple [VRaw ron; VInt U8 1]) = inl out /\
  options_from_str opts_default (de_ty none 3 (TTuple [TRaw; TInt U8])) out = RError e sp.
Proof.
  exists attr_raw. do 3 eexists. split; [vm_compute; reflexivity|]. split; [vm_compute; reflexivity|]. vm_compute. reflexivity.
Qed.
(** ... and when the larger document is read with [unwrap_variant_newtypes], under
    which a comment before a closing parenthesis is not skipped *)
Definition uvn : opts := Opts (Exts false false true false) (Some 128%nat).
Theorem C28_unwrapped_refuted : exists ron out e sp, raw_from_ron ron = RValue ron /\
  to_string uvn None (VTuple [VRaw ron; VInt U8 1]) = inl out /\
  options_from_str uvn (de_ty none 3 (TTuple [TRaw; TInt U8])) out = RError e sp.
Proof.
  exists (lit "Some(""a""/*(*/)"). do 3 eexists. split; [vm_compute; reflexivity|]. split; [vm_compute; reflexivity|]. vm_compute. reflexivity.
Qed.
Print Assumptions C27_trim_attribute_refuted.
Print Assumptions C27_trim_panic_refuted.
Print Assumptions C28_attribute_refuted.
Print Assumptions C28_unwrapped_refuted.
