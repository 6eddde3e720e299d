(** Values with raw values in them: what is read from their texts. *)
From Coq Require Import String Ascii NArith ZArith Lia Bool List Permutation.
From Coq Require Import ZifyBool ZifyNat ZifyN.
From Verif Require Import Base Facts Value Data Parse De Span Raw Wp EnvOk Layout Lit Attr LexSafe LexWs LexRead DeSafe DocRead LexDoc Fuel Limit Keep Inv LexSound Repr Accept
  Pieces Sound DocSound ReprFacts Typed Typing TypedRead AnyRead TypedMain Exact RawRead RawSpec RawEmbed.
From Verif Require SerRepr AnyMain Wider.
From Verif Require Import RangeSpec.
Import ListNotations.
Open Scope N_scope.
Open Scope list_scope.
Open Scope m_scope.

Section WithEnv.
Context {E : Env} {X : XidOk E} {FO : FloatOk E}.

(** ** A raw value *)
Lemma app_split {A} (a b c d : list A) : a ++ b = c ++ d -> (exists u, a = c ++ u /\ d = u ++ b) \/ (exists u, c = a ++ u /\ b = u ++ d).
Proof.
  revert c. induction a as [|x a IH]; intros c Q; [right; now exists c|]. destruct c as [|y c]; [left; exists (x :: a); auto|].
  cbn in Q. injection Q as -> Q. destruct (IH c Q) as [(u & -> & ->)|(u & -> & ->)]; [left|right]; now exists u.
Qed.
(** a unit's text is not part name, part layout *)
Lemma unit_split e t d w t2 n w2 : vacc e false XUnit t d -> layout w -> ident_lit t2 n -> final_layout w2 -> t ++ w = t2 ++ w2 -> w2 = w.
Proof.
  intros HV L HI F Q. destruct t2 as [|c2 t2]; [inversion HI|]. assert (FX := first_xid _ _ _ HI).
  assert (NO : forall c u, c :: u = [] \/ (exists c' u', c :: u = c' :: u' /\ (is_ws_char c' = true \/ c' = c_slash)) -> c = c_hash \/ edge c -> False).
  { intros c u [H|(c' & u' & H & C)] [->|[W S]]; try discriminate; injection H as <- _; destruct C as [C|C]; congruence || discriminate. }
  apply vacc_unit in HV; [|reflexivity|reflexivity]. destruct HV as [-> |[-> |(m & HM)]].
  - cbn in Q. injection Q as <- _. now destruct FX.
  - cbn in Q. injection Q as <- _. now destruct FX.
  - apply app_split in Q as [(u & -> & ->)|(u & Q & ->)].
    + destruct u as [|c u]; [reflexivity|exfalso]. destruct (final_head _ F) as [H|(c' & u' & H & C)]; [discriminate|]. cbn in H. injection H as <- _.
      apply (NO c u); [right; exists c, u; auto|]. eapply ident_maximal; [exact HM|exact HI|reflexivity].
    + destruct u as [|c u]; [reflexivity|exfalso]. destruct (layout_head _ L) as [H|(c' & u' & H & C)]; [discriminate|]. cbn in H. injection H as <- _.
      apply (NO c u); [right; exists c, u; auto|]. eapply ident_maximal; [exact HI|exact HM|exact Q].
Qed.
Lemma tight_trimmed t : tight t -> trimmed t.
Proof.
  intros [O EE] w u L [Q|Q]; [|eapply ends_no_layout; eassumption]. assert (V := ReprFacts.opens_solid _ (O [])). rewrite app_nil_r, Q in V.
  destruct (layout_head w L) as [-> |(c & w' & -> & C)]; [reflexivity|exfalso]. destruct V as [W NS]. cbn in W, NS. destruct C as [C|C]; [congruence|]. subst c. now apply NS.
Qed.
Lemma trail_last w s s1 : trail w s -> layout w -> rest s = [] -> skip_ws s = Ok tt s1 -> last_ws s1 <> None.
Proof.
  intros TR L R H. unfold skip_ws in H. unfold bind at 1, modify in H. unfold bind at 1, src in H. rewrite track_ws_rest, R in H. injection H as <-.
  destruct TR as [[_ (l & Q & B)]|(_ & _ & TR)].
  - unfold track_ws. rewrite Q. apply Nat.ltb_lt in B. rewrite B. cbn. congruence.
  - apply TR in L. unfold track_ws. destruct (last_ws s) as [l|] eqn:Q; [|contradiction]. destruct (Nat.ltb _ _); cbn; congruence.
Qed.
Lemma closing_solid r : closing r -> solid r.
Proof.
  destruct r as [|c r]; [intros _; exact Logic.I|]. intros C. cbn in C. decompose [or] C; try contradiction; subst c; apply solid_char; reflexivity || discriminate.
Qed.
Lemma embeds_le n m x t : (n <= m)%nat -> embeds (Some n) x t -> embeds (Some m) x t.
Proof. intros L H T s K r I N U LO. apply H; auto. destruct (lim s); cbn in *; [lia|auto]. Qed.

Variable e : exts.
Hypothesis ou : x_unwrap_variant_newtypes e = false.
Lemma spw_raw n t x d : (n <= 128)%nat -> tight t -> vacc exts_empty false x t d -> embeds (Some n) x t ->
  spw e de_raw n t (around t).
Proof.
  intros LE TI HV EM T s r r0 C0 (w & LW & ->) I RD Hs He Hn Hl.
  assert (NE : rest s <> []). { rewrite Hs. apply app_nonempty_l. eapply vacc_nonempty; eauto. }
  assert (RD0 := RD). destruct RD0 as (p & PW & [[? _]|[_ LP]]); [contradiction|].
  destruct (skip_none T s I) as (s2 & H2 & R2 & A2); [rewrite Hs; apply opens_solid, TI|].
  assert (I2 := adv_inv _ _ _ A2). assert (RD2 := skip_ws_ready _ _ _ (ready_tracked _ RD) H2).
  assert (E2 : ext s2 = e) by (rewrite (adv_ext _ _ _ A2); assumption).
  assert (N2 : nt s2 = false) by (rewrite (adv_nt _ _ _ A2); assumption).
  assert (L2 : lim s2 = lim s) by apply (adv_lim _ _ _ A2).
  destruct (EM T s2 (upto r0) (w ++ r0)) as (s3 & H3 & (w1 & LW1 & R3) & _ & D3);
    [assumption|assumption|now rewrite E2|rewrite L2; destruct (lim s); cbn in *; auto|apply upto_remainder, C0|now exists w|congruence|].
  assert (I3 := proj1 D3). assert (W4 := wp_skip_ws T s3 w1 r0 I3 R3 LW1 (closing_solid _ C0)).
  Transparent wp. unfold wp in W4. destruct (skip_ws s3) as [[] s4| | |] eqn:H4; try contradiction. destruct W4 as [R4 A4].
  assert (UN : (match rest s4, last_ws s4 with [], None => true | _, _ => false end) = false).
  { rewrite R4. destruct r0; [|reflexivity]. rewrite app_nil_r in *.
    assert (LL : last_ws s4 <> None); [|destruct (last_ws s4); congruence].
    destruct w1 as [|c1 w1].
    - (* whether implicit_some is on does not matter *)
      set (s2' := set_ext (Exts (x_unwrap_newtypes e) false false (x_explicit_struct_names e)) s2).
      assert (P2 : Verif.Exact.plain s2') by (split; [exact N2|split; reflexivity]).
      assert (I2' : inv T s2') by exact I2. assert (RD2' : Keep.ready s2') by exact RD2.
      destruct (EM T s2' (upto []) w) as (s3' & H3' & _);
        [exact I2'|exact N2|reflexivity|cbn; rewrite L2; destruct (lim s); cbn in *; auto|apply upto_remainder, C0|now exists w; rewrite app_nil_r|cbn; congruence|].
      assert (Q3 : s3 = set_ext e s3').
      { assert (W : Wider.wider (ext s2') e) by (repeat split; auto; discriminate).
        assert (W3 := Wider.sm_any_value e s2' W). rewrite H3' in W3. destruct W3 as [_ W3].
        replace (set_ext e s2') with s2 in W3 by (unfold s2'; rewrite <- E2; now destruct s2). congruence. }
      assert (R3' : rest s3' = []) by (rewrite Q3 in R3; exact R3).
      destruct (value_exact T s2' x s3' I2' P2 RD2' H3') as (t2 & w3 & d2 & Q & LA & TR & NW & HV2 & _); [rewrite R3'; exact Logic.I|].
      eapply trail_last; [|  |exact R3|exact H4]; [rewrite Q3; exact TR|]. destruct NW as [-> |(-> & m & HI)]; [constructor|].
      change (rest s2') with (rest s2) in Q. rewrite R2, Hs, R3', app_nil_r in Q. rewrite R3' in LA.
      rewrite (unit_split _ _ _ _ _ _ _ HV LW HI (lay_final _ _ LA) Q). exact LW.
    - eapply (skip_ws_closed T); [exact I3| |exact H4|rewrite R3, R4; symmetry; apply app_nil_r|exact LW1]. right. rewrite R3. discriminate. }
  assert (GV : exists sx, from_str opts_default any_value (p ++ t ++ w) = Ok x sx).
  { assert (G : good_raw (p ++ t ++ w) x t).
    { exists p, [], w, d. split; [reflexivity|]. split; [exact LP|]. split; [constructor|]. split; [left; exact LW|]. split; [exact HV|]. split; [exact TI|]. eapply embeds_le; eassumption. }
    apply good_value in G. unfold raw_into_rust, options_from_str, spanned in G.
    destruct (from_str opts_default any_value (p ++ t ++ w)) as [x' s'|e' s'| |]; try discriminate G; [|destruct (span_error (p ++ t ++ w) s'); discriminate G].
    injection G as <-. eauto. }
  destruct GV as (sx & GV).
  unfold wp, de_raw. unfold bind at 1, pre_ws_src. unfold bind at 1. rewrite H2. unfold bind at 1. rewrite H3. unfold bind at 1. rewrite H4.
  unfold bind at 1, src. unfold bind at 1, has_unclosed_line_comment.
  replace (match rest s4 with [] => match last_ws s4 with Some _ => false | None => true end | _ :: _ => false end) with false by (rewrite <- UN; now destruct (rest s4)).
  unfold bind at 1, slice_before. rewrite PW, Hs, R4.
  replace (p ++ t ++ w ++ r0) with ((p ++ t ++ w) ++ r0) by (rewrite <- !app_assoc; reflexivity).
  rewrite blen_app, Nat.add_sub, btake_app. replace (Nat.leb _ _) with true by (symmetry; apply Nat.leb_le; lia).
  unfold of_slice, ret at 1. rewrite GV. cbn [ret]. Opaque wp.
  split; [now exists p, w|]. split; [exists []; split; [constructor|exact R4]|]. split; [apply A4|].
  split. { eapply ready_tracked, skip_ws_ready; [|exact H4]. assert (KP := keeps_any_value). eapply keeps_ok; [exact KP|apply ready_tracked, RD2|exact H3]. }
  destruct D3 as (_ & _ & E3 & L3 & N3). split; [rewrite (adv_ext _ _ _ A4); congruence|]. split; [rewrite (adv_nt _ _ _ A4); auto|].
  rewrite (adv_lim _ _ _ A4). congruence.
Qed.

(** ** Values with raw values *)
Section Types.
Variable tenv : nat -> ty.
Variable fok : fk -> N -> Prop.
Local Notation typedr := (typedr tenv fok).
Lemma peelr t v : typedr t v -> exists k t', no_ref t' /\ typedr t' v /\ forall f, de_ty tenv (k + f) t = de_ty tenv f t'.
Proof.
  induction 1; try (eexists 0%nat, _; split; [|split; [econstructor; eassumption|reflexivity]]; exact Logic.I).
  - destruct (peel tenv fok T v H0) as (k & t' & N & T' & H'). exists k, t'. split; [assumption|]. split; [now apply yr_flat|exact H'].
  - destruct IHtypedr as (k & t' & N & T & H'). exists (Datatypes.S k), t'. split; [assumption|]. split; [assumption|].
    intros f. cbn [plus De.de_ty de_step]. apply H'.
Qed.
Lemma typedr_flat t v : typedr t v -> SerRepr.flat v -> (forall r, v <> VRaw r) -> typed tenv fok t v.
Proof. induction 1; intros F NR; try contradiction; [assumption|now elim (NR r)|constructor; auto]. Qed.

Variable rn : str -> nat.
Local Notation needr := (needr rn).
Lemma needr_flat v : SerRepr.flat v -> (forall r, v <> VRaw r) -> needr v = need v.
Proof. destruct v; cbn; intros F NR; try reflexivity; try contradiction. exfalso. eapply NR. reflexivity. Qed.

(** [t] is read to a value like [v] *)
Variable sf : token -> Prop.
Local Notation de_ty := (de_ty tenv).
Definition okr (v : val) (t : str) : Prop := (forall r, opens (t ++ r)) /\
  forall T, typedr T v -> exists n, forall f, (n <= f)%nat -> spw e (de_ty f T) (needr v) t (alike v).
Lemma okr_intro v t : (forall r, opens (t ++ r)) -> (forall T, no_ref T -> typedr T v -> exists n, forall f, (n <= f)%nat ->
  spw e (de_step tenv (de_ty f) T) (needr v) t (alike v)) -> okr v t.
Proof.
  intros O H. split; [exact O|]. intros T HT. destruct (peelr T v HT) as (k & t' & N & HT' & EQ). destruct (H t' N HT') as (n & Hn).
  exists (k + Datatypes.S n)%nat. intros f L. replace f with (k + Datatypes.S (f - k - 1))%nat by lia. rewrite EQ. apply Hn. lia.
Qed.
Lemma okr_goodp v t T c : okr v t -> typedr T v -> (needr v <= c)%nat -> exists n, forall f, (n <= f)%nat -> goodp e (de_ty f T) c t (alike v).
Proof.
  intros [O H] HT L. destruct (H T HT) as (n & Hn). exists n. intros f LF. split; [exact O|]. eapply spw_le; [exact L|auto].
Qed.
Lemma okr_flat v t : SerRepr.flat v -> (forall r, v <> VRaw r) -> repr e sf v t -> okr v t.
Proof.
  intros F NR R. split; [now apply repr_opens with e sf v|]. intros T HT. apply typedr_flat in HT; auto.
  destruct (repr_ok e sf tenv fok v t R T HT) as (n & Hn). exists n. intros f LF. rewrite needr_flat by assumption.
  eapply spw_P; [apply spw_trw; [apply trw_tr; apply (Hn f LF)|apply keeps_ty]|]. intros a <-. now constructor.
Qed.
(** a range of numbers, written as such *)
Lemma number_flat v : is_number v = true -> SerRepr.flat v /\ forall r, v <> VRaw r.
Proof. destruct v; try discriminate; intros _; split; [exact Logic.I|discriminate|exact Logic.I|discriminate]. Qed.
Lemma okr_numbers n l t : forallb (fun kv => is_number (snd kv)) l = true -> repr e sf (VStruct n l) t -> okr (VStruct n l) t.
Proof.
  intros NU R. rewrite forallb_forall in NU. split; [now apply repr_opens with e sf (VStruct n l)|]. intros T HT.
  assert (HT' : typed tenv fok T (VStruct n l)).
  { remember (VStruct n l) as v eqn:Q. induction HT; try discriminate; [subst; contradiction|injection Q as -> ->|constructor; auto].
    constructor; auto. rewrite Forall_forall in *. intros fv IN. destruct (H1 fv IN) as (T & I' & HT). exists T. split; [exact I'|].
    destruct (number_flat _ (NU _ IN)) as [F NR]. now apply typedr_flat. }
  destruct (repr_ok e sf tenv fok _ t R T HT') as (k & Hk). exists k. intros f LF.
  replace (needr (VStruct n l)) with (need (VStruct n l)).
  { eapply spw_P; [apply spw_trw; [apply trw_tr; apply (Hk f LF)|apply keeps_ty]|]. intros a <-. apply al_struct. clear - NU.
    induction l as [|kv l IH]; constructor; [|apply IH; intros x IN; apply NU; now right]. split; [reflexivity|]. apply al_flat, number_flat, NU. now left. }
  cbn [need RawSpec.needr]. do 2 f_equal. apply map_ext_in. intros kv IN. symmetry. destruct (number_flat _ (NU _ IN)). now apply needr_flat.
Qed.
Lemma okr_raw r t x d : (rn r <= 128)%nat -> around t r -> tight t -> vacc exts_empty false x t d -> embeds (Some (rn r)) x t -> okr (VRaw r) t.
Proof.
  intros LE (w & w' & L & L' & ->) TI HV EM. apply okr_intro; [apply TI|]. intros T NR HT. inversion HT; subst; try contradiction;
    [match goal with H : typed _ _ _ _ |- _ => inversion H; subst; contradiction end|].
  exists 0%nat. intros f _. cbn [de_step needr]. eapply spw_map; [eapply spw_raw; eassumption|].
  intros b (p & p' & LP & LP' & ->). constructor. exists t, x.
  assert (G : forall p p', layout p -> layout p' -> raw_into_rust any_value (p ++ t ++ p') = RValue x).
  { intros q q' LQ LQ'. apply good_value with t. exists q, [], q', d. split; [reflexivity|]. split; [exact LQ|]. split; [constructor|]. split; [left; exact LQ'|].
    split; [exact HV|]. split; [exact TI|]. eapply embeds_le; eassumption. }
  split; [now exists w, w'|]. split; [now exists p, p'|]. split; [now apply tight_trimmed|]. split; [auto|]. split; [auto|].
  assert (G0 := G [] [] l_nil l_nil). rewrite app_nil_r in G0. exact G0.
Qed.

(** ** Elements *)
Lemma seq_goodp T c l t : items okr l t -> Forall (typedr T) l -> (forall v, In v l -> (needr v <= c)%nat) ->
  exists n, forall f, (n <= f)%nat -> items (fun P t => goodp e (de_ty f T) c t P) (map alike l) t.
Proof.
  induction 1 as [|v t w HV L|v t w w' l ts HV L L' I IH]; intros F N.
  - exists 0%nat. constructor.
  - inversion F as [|v' l' F1 F2]; subst. destruct (okr_goodp v t T c) as (n & H); auto. { apply N. now left. }
    exists n. intros f LF. cbn [map]. constructor; auto.
  - inversion F as [|v' l' F1 F2]; subst. destruct (okr_goodp v t T c) as (n & H); auto. { apply N. now left. }
    destruct IH as (n' & H'); auto. { intros v' IN. apply N. now right. }
    exists (Nat.max n n'). intros f LF. cbn [map]. constructor; auto; [apply H|apply H']; lia.
Qed.
Lemma tuple_goodp c l t : items okr l t -> forall ts, Forall2 typedr ts l -> (forall v, In v l -> (needr v <= c)%nat) ->
  exists n, forall f, (n <= f)%nat -> exists ps, map fst ps = map (de_ty f) ts /\ map snd ps = map alike l /\
    items (fun p t => goodp e (fst p) c t (snd p)) ps t.
Proof.
  induction 1 as [|v t w HV L|v t w w' l tx HV L L' I IH]; intros ts F N; inversion F as [|x v' l0 l' F1 F2]; subst.
  - exists 0%nat. intros f _. exists []. repeat split. constructor.
  - inversion F2; subst. destruct (okr_goodp v t x c) as (n & H); auto. { apply N. now left. }
    exists n. intros f LF. exists [(de_ty f x, alike v)]. split; [reflexivity|]. split; [reflexivity|]. constructor; auto. cbn. auto.
  - destruct (okr_goodp v t x c) as (n & H); auto. { apply N. now left. }
    destruct (IH l0) as (n' & H'); auto. { intros v' IN. apply N. now right. }
    exists (Nat.max n n'). intros f LF. destruct (H' f) as (ps & M1 & M2 & I'); [lia|].
    exists ((de_ty f x, alike v) :: ps). cbn [map fst snd]. split; [congruence|]. split; [congruence|].
    constructor; auto. cbn. apply H. lia.
Qed.
Definition alike2 (kv : val * val) : (val -> Prop) * (val -> Prop) := (alike (fst kv), alike (snd kv)).
Lemma map_goodp kt vt c l t : items (entry okr okr) l t -> Forall (fun kv => typedr kt (fst kv) /\ typedr vt (snd kv)) l ->
  (forall kv, In kv l -> (needr (fst kv) <= c /\ needr (snd kv) <= c)%nat) ->
  exists n, forall f, (n <= f)%nat -> items (goodp_entry e (de_ty f kt) (de_ty f vt) c) (map alike2 l) t.
Proof.
  assert (ONE : forall kv t, entry okr okr kv t -> typedr kt (fst kv) -> typedr vt (snd kv) ->
    (needr (fst kv) <= c)%nat -> (needr (snd kv) <= c)%nat ->
    exists n, forall f, (n <= f)%nat -> goodp_entry e (de_ty f kt) (de_ty f vt) c (alike2 kv) t).
  { intros kv t0 [k tk v tv w w' BK L L' BV] TK TV NK NV. cbn [fst snd] in *.
    destruct (okr_goodp k tk kt c BK TK NK) as (n & H). destruct (okr_goodp v tv vt c BV TV NV) as (n' & H').
    exists (Nat.max n n'). intros f LF. constructor; auto; [apply H|apply H']; lia. }
  induction 1 as [|v t w HV L|v t w w' l ts HV L L' I IH]; intros F N.
  - exists 0%nat. constructor.
  - inversion F as [|? ? [F1 F2] F3]; subst. destruct (N v) as [N1 N2]; [now left|].
    destruct (ONE v t HV F1 F2 N1 N2) as (n & H). exists n. intros f LF. cbn [map]. constructor; auto.
  - inversion F as [|? ? [F1 F2] F3]; subst. destruct (N v) as [N1 N2]; [now left|].
    destruct (ONE v t HV F1 F2 N1 N2) as (n & H).
    destruct IH as (n' & H'); auto. { intros v' IN. apply N. now right. }
    exists (Nat.max n n'). intros f LF. cbn [map]. constructor; auto; [apply H|apply H']; lia.
Qed.
Definition alikef (kv : str * val) : str * (val -> Prop) := (fst kv, alike (snd kv)).
Lemma fields_goodp fields c l t : items (entry field_key_text okr) l t -> NoDup (map fst fields) ->
  Forall (fun fv => exists t, In (fst fv, t) fields /\ typedr t (snd fv)) l ->
  (forall fv, In fv l -> (needr (snd fv) <= c)%nat) ->
  exists n, forall f, (n <= f)%nat -> items (goodp_field e (de_ty f) fields c) (map alikef l) t.
Proof.
  intros I ND.
  assert (ONE : forall kv t, entry field_key_text okr kv t -> (exists t, In (fst kv, t) fields /\ typedr t (snd kv)) ->
    (needr (snd kv) <= c)%nat -> exists n, forall f, (n <= f)%nat -> goodp_field e (de_ty f) fields c (alikef kv) t).
  { intros kv t0 [k tk v tv w w' BK L L' BV] (ft & IN & TV) NV. cbn [fst snd] in *.
    destruct (okr_goodp v tv ft c BV TV NV) as (n' & H').
    exists n'. intros f LF. unfold alikef. cbn [fst snd]. apply gpf with ft; auto. now apply TypedRead.assoc_in. }
  induction I as [|v t w HV L|v t w w' l ts HV L L' I IH]; intros F N.
  - exists 0%nat. constructor.
  - inversion F as [|? ? F1 F2]; subst.
    destruct (ONE v t HV F1 (N v (or_introl eq_refl))) as (n & H). exists n. intros f LF. cbn [map]. constructor; auto.
  - inversion F as [|? ? F1 F2]; subst.
    destruct (ONE v t HV F1 (N v (or_introl eq_refl))) as (n & H).
    destruct IH as (n' & H'); auto. { intros v' IN. apply N. now right. }
    exists (Nat.max n n'). intros f LF. cbn [map]. constructor; auto; [apply H|apply H']; lia.
Qed.
Lemma fits_map l l' : Forall2 fits (map alike l) l' -> Forall2 alike l l'.
Proof. revert l'. induction l as [|v l IH]; intros l' F; inversion F; subst; constructor; auto. Qed.
Lemma fits2_map l l' : Forall2 fits2 (map alike2 l) l' -> Forall2 (fun a b => alike (fst a) (fst b) /\ alike (snd a) (snd b)) l l'.
Proof. revert l'. induction l as [|v l IH]; intros l' F; inversion F; subst; constructor; auto. Qed.
Lemma fitsf_map l l' : Forall2 fitsf (map alikef l) l' -> Forall2 (fun a b => fst a = fst b /\ alike (snd a) (snd b)) l l'.
Proof. revert l'. induction l as [|v l IH]; intros l' F; inversion F; subst; constructor; auto. Qed.
Lemma alikef_fst l : map fst (map alikef l) = map fst l.
Proof. rewrite map_map. reflexivity. Qed.

(** ** Prefixes *)
Lemma lp_opens r : opens (c_lp :: r).
Proof. split; [reflexivity|]. cbn. intuition discriminate. Qed.
Lemma named_opens gap name tn r : name_text e sf gap name tn -> opens (tn ++ c_lp :: r).
Proof. intros [XN|t w _ HI L _]; [apply lp_opens|]. rewrite <- app_assoc. eapply ident_opens; exact HI. Qed.
Lemma spw_get {B} (k : st -> M B) c t (P : B -> Prop) : (forall s, ext s = e -> nt s = false -> spw e (k s) c t P) -> spw e (bind get k) c t P.
Proof. intros H T s r r0 HR HK J LV Hs He Hn Hl. apply wp_bind, wp_get. now apply (H s He Hn T s r r0). Qed.
Lemma spw_nt {B} (m : M B) c t (P : B -> Prop) : spw e m c t P -> spw e (modify (set_nt false) ;;; m) c t P.
Proof.
  intros H T s r r0 HR HK J LV Hs He Hn Hl. apply wp_bind, wp_modify.
  eapply wp_conseq; [apply (H T (set_nt false s) r r0); auto|auto|auto].
Qed.
Lemma sp_nt_ext l c D : sp e l l (modify (fun s => set_nt (x_unwrap_variant_newtypes (ext s)) s)) c [] D (fun _ => True).
Proof.
  intros T s r J LV Hs Dr He Hn Hl. apply wp_modify. cbn [app] in Hs. split; [exact Logic.I|]. split; [exact Hs|]. split; [exact J|]. split; [destruct l; exact LV|].
  split; [exact He|]. split; [cbn; now rewrite He|reflexivity].
Qed.
Lemma sp_any_D {A} l l' (m : M A) c t (D : str -> Prop) P : sp e l l' m c t anything P -> sp e l l' m c t D P.
Proof. intros H. eapply sp_D; [exact H|now intros]. Qed.
(** the layout after a value, its comma left out, and a closing parenthesis *)
Lemma sp_finish {A} c w (v : A) e0 (Q : A -> Prop) : layout w -> Q v ->
  sp e false false (comma ;;; (b <- consume_char c_rp ;; if b then ret v else fail e0)) c (w ++ [c_rp]) anything Q.
Proof.
  intros L HQ. eapply (sp_bind e false false false _ _ c w [c_rp] (begins c_rp) anything); [apply (sp_no_comma e w c c_rp); [cbn; tauto|exact L]| |intros r _; now exists r].
  intros b _. eapply sp_bind_l with (D1 := anything); [apply sp_char| |now intros]. intros b' <-. now apply sp_ret.
Qed.
Lemma sp_arg_close {A} (m : M A) (g : A -> val) c t w w' (P : A -> Prop) (Q : val -> Prop) e0 : goodp e m c t P -> (forall a, P a -> Q (g a)) -> layout w -> layout w' ->
  sp e false false (skip_ws ;;; (modify (fun s => set_nt (x_unwrap_variant_newtypes (ext s)) s) ;;;
      (x <- guard m ;; (modify (set_nt false) ;;; (comma ;;; (b <- consume_char c_rp ;; if b then ret (g x) else fail e0))))))
     (Datatypes.S c) (w ++ t ++ w' ++ [c_rp]) anything Q.
Proof.
  intros [O G] HQ L L'.
  refine (sp_bind e false true false _ _ (Datatypes.S c) w _ solid anything _ _ (sp_ws e w (Datatypes.S c) L) _ _); [|intros r _; rewrite <- app_assoc; apply opens_solid, O]. intros _ _.
  eapply sp_bind_r with (D1 := anything); [apply sp_nt_ext| |now intros]. intros _ _.
  eapply (spw_bind e _ _ false (Datatypes.S c) t w' [c_rp] anything P); [now apply spw_guard_with|assumption|intros r _; cbn; tauto|].
  intros a w1 PA L1. eapply sp_bind_r with (D1 := anything); [apply sp_nt| |now intros]. intros _ _. apply sp_finish; auto.
Qed.
Lemma sp_lp {B} l l' (k : bool -> M B) c t D Q : sp e false l' (k true) c t D Q -> sp e l l' (x <- consume_char c_lp ;; k x) c (c_lp :: t) D Q.
Proof.
  intros H. apply sp_pre. eapply (sp_bind e false false l' _ _ c [c_lp] t anything D); [apply sp_char| |now intros]. now intros b <-.
Qed.
Lemma sp_ws_lp {B} l l' w (m : M B) c t D Q : layout w -> sp e true l' m c (c_lp :: t) D Q -> sp e l l' (skip_ws ;;; m) c (w ++ c_lp :: t) D Q.
Proof.
  intros L H. apply sp_pre. refine (sp_bind e false true l' _ _ c w _ solid D _ _ (sp_ws e w c L) _ _); [|intros; apply lp_solid]. intros _ _. exact H.
Qed.
Lemma sp_enum {m : M val} name c t D (Q : val -> Prop) : sp e true false m c t D Q -> (forall r, solid (t ++ r)) ->
  sp e false false (modify (set_nt false) ;;; map_err (enum_error_name name) (guard_r (skip_ws ;;; m))) (Datatypes.S c) t D Q.
Proof.
  intros H SL. eapply sp_bind_r with (D1 := anything); [apply sp_nt| |now intros]. intros _ _. apply sp_map_err, sp_guard_with.
  eapply sp_bind_r with (D1 := solid); [apply (sp_ws e [] c l_nil)|intros _ _; exact H|auto].
Qed.
Lemma sp_enum_id {B} variants k t w (f : str * vty -> M B) c t' D Q : ident_lit t k -> NoDup (map fst variants) -> In (k, w) variants ->
  sp e false false (f (k, w)) c t' D Q -> (forall r, D r -> ident_end (t' ++ r)) -> (1 <= c)%nat ->
  sp e true false (x <- guard (k <- de_identifier ;;
            match assoc k variants with
            | Some w => ret (k, w)
            | None => fail (ENoSuchEnumVariant k None)
            end) ;; f x) c (t ++ t') D Q.
Proof.
  intros HI ND IN H HD LC. apply sp_pre. eapply (sp_bind e false false false _ _ c t t' ident_end D (yes (k, w))); [|intros x <-; exact H|exact HD].
  eapply sp_le; [exact LC|]. apply sp_guard_with. eapply sp_bind_l; [apply sp_tr; [apply tr_ident; exact HI|auto with keeps]| |auto].
  intros i <-. rewrite (TypedRead.assoc_in k w variants ND IN). now apply sp_ret.
Qed.

(** ** All values *)
Ltac typer HT := inversion HT; subst; try contradiction.
Lemma okr_some v t w w' w'' : layout w -> layout w' -> layout w'' -> okr v t -> okr (VSome v) (s_Some ++ w ++ c_lp :: w' ++ t ++ w'' ++ [c_rp]).
Proof.
  intros L L' L'' OV. apply okr_intro; [intros r; rewrite <- app_assoc; apply (ident_opens s_Some s_Some), AnyMain.word_ident; cbn; tauto|].
  intros T NR HT. typer HT. match goal with H : typedr _ v |- _ => rename H into HT0 end.
  destruct (okr_goodp v t _ (needr v) OV HT0 (le_n _)) as (n & H). exists n. intros f LF. destruct (H f LF) as [O G]. cbn [de_step needr].
  eapply spw_sp, sp_pre, sp_any_D. unfold de_option.
  eapply sp_bind_r with (D1 := fun r => ident_at s_None r = false) (P := yes false); [apply sp_tr; [apply tr_lex, reads_consume_ident_false|auto with keeps]| |reflexivity]. intros b <-.
  eapply (sp_bind e false false false _ _ _ s_Some _ (starts_not xid_continue) anything (yes true)); [apply sp_tr; [apply tr_lex, reads_consume_ident|auto with keeps]| |].
  2:{ intros r _. rewrite <- app_assoc. apply ident_end_xid. now apply lp_ident_end. }
  intros b <-. cbv iota.
  eapply sp_text; [eapply (sp_bind e false false false _ _ _ (w ++ [c_lp]) (w' ++ t ++ w'' ++ [c_rp]) anything anything (yes true))|texts]; [| |now intros].
  - apply sp_ws_lp; [exact L|]. apply sp_pre, sp_char.
  - intros b <-. cbv iota. refine (sp_arg_close _ (fun x => x) _ _ _ _ (alike (VSome v)) _ _ _ _ L' L''); [|auto]. split; [exact O|].
    eapply spw_map; [exact G|]. intros a HA. now constructor.
Qed.
Lemma spw_implicit (m : M val) c t P : x_implicit_some e = true -> no_option t -> spw e m c t P -> spw e (de_option VNone m) (Datatypes.S c) t P.
Proof.
  intros IS NO H T s r r0 HR HK J LV Hs He Hn Hl. unfold de_option.
  assert (D : delim r) by (eapply remainder_delim; [apply upto_remainder, HR|exact HK]).
  assert (NI : forall n, In n [s_None; s_Some] -> ident_at n (rest s) = false) by (intros n IN; rewrite Hs; now apply no_option_ident).
  apply wp_bind. eapply wp_ok; [apply consume_ident_false, NI; cbn; tauto|]. cbn iota.
  apply wp_bind. eapply wp_ok; [apply consume_ident_false, NI; cbn; tauto|]. cbn iota.
  apply wp_bind, wp_ret. cbn iota. apply wp_bind, wp_get. rewrite He, IS.
  now apply (spw_guard_with e true _ c t P H T s r r0).
Qed.
Lemma okr_implicit v t : x_implicit_some e = true -> no_option t -> okr v t -> okr (VSome v) t.
Proof.
  intros IS NO OV. apply okr_intro; [apply OV|]. intros T NR HT. typer HT. match goal with H : typedr _ v |- _ => rename H into HT0 end.
  destruct (okr_goodp v t _ (needr v) OV HT0 (le_n _)) as (n & H). exists n. intros f LF. destruct (H f LF) as [O G]. cbn [de_step needr].
  apply spw_implicit; auto. eapply spw_map; [exact G|]. intros a HA. now constructor.
Qed.
Lemma okr_newtype name v tn t w w' : x_unwrap_newtypes e = false -> name_text e sf true name tn -> layout w -> okr v t -> layout w' ->
  okr (VNewtype name v) (tn ++ c_lp :: w ++ t ++ w' ++ [c_rp]).
Proof.
  intros UN HN L OV L'. apply okr_intro; [intros r; rewrite <- app_assoc; eapply named_opens; exact HN|].
  intros T NR HT. typer HT. match goal with H : typedr _ v |- _ => rename H into HT0 end.
  destruct (okr_goodp v t _ (needr v) OV HT0 (le_n _)) as (n & H). exists n. intros f LF. destruct (H f LF) as [O G]. cbn [de_step needr].
  eapply spw_sp, sp_pre, sp_any_D. unfold de_newtype. apply sp_get. intros s -> ->. rewrite UN. cbn [orb]. cbv iota.
  eapply sp_named; [exact HN|now eexists|]. intros w0 L0 _. apply sp_ws_lp; [exact L0|]. apply sp_lp. cbv iota.
  refine (sp_bind e false true false _ _ _ w _ solid anything _ _ (sp_ws e w _ L) _ _); [|intros r _; rewrite <- app_assoc; apply opens_solid, O]. intros _ _.
  eapply (spw_bind e _ _ false _ t w' [c_rp] anything (alike (VNewtype name v))); [|exact L'|intros r _; cbn; tauto|].
  - apply spw_guard_with. eapply spw_map; [exact G|]. intros a HA. now constructor.
  - intros a w1 PA L1. now apply sp_finish.
Qed.
Lemma okr_newtype_unwrapped name v t : x_unwrap_newtypes e = true -> okr v t -> okr (VNewtype name v) t.
Proof.
  intros UN OV. apply okr_intro; [apply OV|]. intros T NR HT. typer HT. match goal with H : typedr _ v |- _ => rename H into HT0 end.
  destruct (okr_goodp v t _ (needr v) OV HT0 (le_n _)) as (n & H). exists n. intros f LF. destruct (H f LF) as [O G]. cbn [de_step needr].
  unfold de_newtype. apply spw_get. intros s -> ->. rewrite UN. cbn [orb]. cbv iota. apply spw_nt, spw_guard_with.
  eapply spw_map; [exact G|]. intros a HA. now constructor.
Qed.
Lemma okr_seq l t w : layout w -> items okr l t -> okr (VSeq l) (c_lb :: w ++ t ++ [c_rb]).
Proof.
  intros L I. apply okr_intro; [intros r; split; [reflexivity|cbn; lia]|]. intros T NR HT. typer HT. match goal with H : Forall _ l |- _ => rename H into F end.
  destruct (seq_goodp t0 (max_list (map needr l)) l t I F) as (n & H); [intros; now apply max_list_map|].
  exists n. intros f LF. cbn [de_step needr]. eapply spw_sp, sp_pre, sp_any_D.
  eapply sp_text; [apply sp_de_seq|].
  + eapply sp_map; [apply sp_seq_all; [cbn; tauto|apply H; exact LF|exact L]|]. intros l' FL. constructor. now apply fits_map.
  + texts.
Qed.
Lemma okr_map l t w : layout w -> items (entry okr okr) l t -> okr (VMap l) (c_lc :: w ++ t ++ [c_rc]).
Proof.
  intros L I. apply okr_intro; [intros r; split; [reflexivity|cbn; lia]|]. intros T NR HT. typer HT. match goal with H : Forall _ l |- _ => rename H into F end.
  destruct (map_goodp kt vt (max_list (map (fun kv => Nat.max (needr (fst kv)) (needr (snd kv))) l)) l t I F) as (n & H).
  { intros kv IN. assert (M := max_list_map (fun kv => Nat.max (needr (fst kv)) (needr (snd kv))) l kv IN). cbn beta in M. lia. }
  exists n. intros f LF. cbn [de_step needr]. eapply spw_sp, sp_pre, sp_any_D.
  eapply sp_text; [apply sp_de_map|].
  + eapply sp_map; [apply sp_map_all; [cbn; tauto|apply H; exact LF|exact L]|]. intros l' FL. constructor. now apply fits2_map.
  + texts.
Qed.
Lemma tuple_bodyr ts l t w0 (g : list val -> val) (Q : val -> Prop) : Forall2 typedr ts l -> items okr l t -> layout w0 -> (forall l', Forall2 alike l l' -> Q (g l')) ->
  exists n, forall f, (n <= f)%nat -> exists w1 t1 (D : str -> Prop), w0 ++ t = t1 ++ w1 /\ layout w1 /\
    (forall r, begins c_rp r -> D (w1 ++ r)) /\
    sp e false false (l <- tuple_elems (map (de_ty f) ts) 0 true ;; ret (g l)) (Datatypes.S (max_list (map needr l))) t1 D Q.
Proof.
  intros F I L0 HQ. destruct (tuple_goodp (max_list (map needr l)) l t I ts F) as (n & H); [intros; now apply max_list_map|].
  exists n. intros f LF. destruct (H f LF) as (ps & M1 & M2 & I').
  destruct (sp_tuple_elems e _ ps t I' w0 true 0%nat L0 (or_introl eq_refl)) as (w1 & t1 & D & EQ & L1 & _ & HD & TR).
  exists w1, t1, D. split; [assumption|]. split; [assumption|]. split; [assumption|].
  rewrite M1, M2 in TR. eapply sp_map; [exact TR|]. intros l' FL. apply HQ. now apply fits_map.
Qed.
Lemma okr_tuple l t w : layout w -> items okr l t -> okr (VTuple l) (c_lp :: w ++ t ++ [c_rp]).
Proof.
  intros L I. apply okr_intro; [intros r; split; [reflexivity|cbn; lia]|]. intros T NR HT. typer HT. match goal with H : Forall2 _ _ l |- _ => rename H into F end.
  destruct (tuple_bodyr ts l t w VTuple (alike (VTuple l)) F I L) as (n & H); [now constructor|]. exists n. intros f LF.
  destruct (H f LF) as (w1 & t1 & D & EQ & L1 & HD & TR). cbn [de_step needr]. eapply spw_sp, sp_pre, sp_any_D.
  eapply sp_text; [exact (sp_de_tuple e _ _ t1 w1 _ D TR L1 HD)|]. rewrite <- EQ. texts.
Qed.
Lemma okr_tuple_struct name l tn t w : name_text e sf false name tn -> layout w -> items okr l t -> okr (VTupleStruct name l) (tn ++ c_lp :: w ++ t ++ [c_rp]).
Proof.
  intros HN L I. apply okr_intro; [intros r; rewrite <- app_assoc; eapply named_opens; exact HN|]. intros T NR HT. typer HT. match goal with H : Forall2 _ _ l |- _ => rename H into F end.
  destruct (tuple_bodyr ts l t w (VTupleStruct name) (alike (VTupleStruct name l)) F I L) as (n & H); [now constructor|]. exists n. intros f LF.
  destruct (H f LF) as (w1 & t1 & D & EQ & L1 & HD & TR). cbn [de_step needr]. eapply spw_sp, sp_pre, sp_any_D.
  apply sp_get. intros s _ ->. cbv iota. eapply sp_named; [exact HN|now eexists|]. intros w0 L0 G0. rewrite G0 by reflexivity. cbn [app].
  apply sp_map_err. eapply sp_text; [exact (sp_de_tuple e _ _ t1 w1 _ D TR L1 HD)|]. rewrite <- EQ. texts.
Qed.
Lemma struct_goodr deny fields fs t w0 (g : list (str * val) -> val) (Q : val -> Prop) io : NoDup (map fst fields) -> map fst fs = map fst fields ->
  Forall (fun fv => exists t, In (fst fv, t) fields /\ typedr t (snd fv)) fs -> items (entry field_key_text okr) fs t -> layout w0 ->
  (forall fs', Forall2 (fun a b => fst a = fst b /\ alike (snd a) (snd b)) fs fs' -> Q (g fs')) ->
  exists n, forall f, (n <= f)%nat ->
    sp e false false (l <- struct_body (de_ty f) deny fields io ;; ret (g l))
       (Datatypes.S (max_list (map (fun kv => needr (snd kv)) fs))) (w0 ++ t) (begins c_rp) Q.
Proof.
  intros ND EQ F I L0 HQ.
  destruct (fields_goodp fields (max_list (map (fun kv => needr (snd kv)) fs)) fs t I ND F) as (n & H).
  - intros fv IN. now apply (max_list_map (fun kv => needr (snd kv))).
  - exists n. intros f LF. eapply sp_map; [eapply sp_struct_body; [apply H; exact LF|exact L0|rewrite alikef_fst; exact EQ|exact ND]|].
    intros l FL. apply HQ. now apply fitsf_map.
Qed.
Lemma okr_struct name fs tn t w : name_text e sf true name tn -> layout w -> items (entry field_key_text okr) fs t ->
  okr (VStruct name fs) (tn ++ c_lp :: w ++ t ++ [c_rp]).
Proof.
  intros HN L I. apply okr_intro; [intros r; rewrite <- app_assoc; eapply named_opens; exact HN|]. intros T NR HT.
  inversion HT as [? ? FL| | | | | | | |deny nm0 fields fs0 ND EQ F| | | |]; subst; try contradiction.
  destruct (struct_goodr deny fields fs t w (VStruct name) (alike (VStruct name fs)) (is_option tenv) ND EQ F I L) as (n & H); [now constructor|].
  exists n. intros f LF. specialize (H f LF). cbn [de_step needr]. eapply spw_sp, sp_pre, sp_any_D.
  eapply sp_bind_r with (D1 := no_range name (map fst fields)) (P := yes None); [apply sp_tr; [apply tr_no_range|auto with keeps]| |].
  + intros x <-. apply sp_get. intros s _ ->. cbv iota. eapply sp_named; [exact HN|now eexists|]. intros w0 L0 _. apply sp_ws_lp; [exact L0|].
    eapply sp_text; [apply sp_pre, sp_struct_after_name; exact H|texts].
  + intros r _. rewrite <- app_assoc. eapply name_no_range; [exact fok|exact HN].
Qed.
Lemma okr_new_variant ename k v tk t w w' w'' : ident_lit tk k -> layout w -> layout w' -> layout w'' -> okr v t ->
  okr (VNewVariant ename k v) (tk ++ w ++ c_lp :: w' ++ t ++ w'' ++ [c_rp]).
Proof.
  intros HI L L' L'' OV. apply okr_intro; [intros r; rewrite <- app_assoc; eapply ident_opens; exact HI|]. intros T NR HT.
  inversion HT as [? ? FL| | | | | | | | |nm0 vs k0 ty0 v0 ND IN HT0| | |]; subst; try contradiction.
  destruct (okr_goodp v t _ (needr v) OV HT0 (le_n _)) as (n & H). exists n. intros f LF. destruct (H f LF) as [O G]. cbn [de_step needr].
  eapply spw_sp, sp_pre, sp_any_D. apply sp_enum; [|intros r; rewrite <- app_assoc; eapply opens_solid, ident_opens; exact HI].
  eapply (sp_enum_id vs k tk (WNew ty0)); [exact HI|exact ND|exact IN| | |lia].
  + cbv iota. apply sp_get. intros s _ _. apply sp_ws_lp; [exact L|]. apply sp_lp. cbv iota.
    refine (sp_arg_close _ (VNewVariant ename k) _ _ _ _ (alike v) _ _ _ _ L' L''); [|intros a HA; now constructor]. split; [exact O|]. now apply spw_map_err.
  + intros r _. rewrite <- app_assoc. now apply lp_ident_end.
Qed.
Lemma okr_tup_variant ename k l tk t w w' : ident_lit tk k -> layout w -> layout w' -> items okr l t ->
  okr (VTupVariant ename k l) (tk ++ w ++ c_lp :: w' ++ t ++ [c_rp]).
Proof.
  intros HI L L' I. apply okr_intro; [intros r; rewrite <- app_assoc; eapply ident_opens; exact HI|]. intros T NR HT.
  inversion HT as [? ? FL| | | | | | | | | |nm0 vs k0 ts l0 ND IN F| |]; subst; try contradiction.
  destruct (tuple_bodyr ts l t w' (VTupVariant ename k) (alike (VTupVariant ename k l)) F I L') as (n & H); [now constructor|]. exists n. intros f LF.
  destruct (H f LF) as (w1 & t1 & D & EQ & L1 & HD & TR). cbn [de_step needr].
  eapply spw_sp, sp_pre, sp_any_D. apply sp_enum; [|intros r; rewrite <- app_assoc; eapply opens_solid, ident_opens; exact HI].
  eapply (sp_enum_id vs k tk (WTup ts)); [exact HI|exact ND|exact IN| | |lia].
  + cbv iota. apply sp_ws_lp; [exact L|]. eapply sp_text; [apply sp_pre; exact (sp_de_tuple e _ _ t1 w1 _ D TR L1 HD)|]. rewrite <- EQ. texts.
  + intros r _. rewrite <- app_assoc. now apply lp_ident_end.
Qed.
Lemma okr_struct_variant ename k fs tk t w w' : ident_lit tk k -> layout w -> layout w' -> items (entry field_key_text okr) fs t ->
  okr (VStructVariant ename k fs) (tk ++ w ++ c_lp :: w' ++ t ++ [c_rp]).
Proof.
  intros HI L L' I. apply okr_intro; [intros r; rewrite <- app_assoc; eapply ident_opens; exact HI|]. intros T NR HT.
  inversion HT as [? ? FL| | | | | | | | | | |nm0 vs k0 deny fields fs0 ND IN ND' EQ F|]; subst; try contradiction.
  destruct (struct_goodr deny fields fs t w' (VStructVariant ename k) (alike (VStructVariant ename k fs)) (is_option tenv) ND' EQ F I L') as (n & H); [now constructor|].
  exists n. intros f LF. specialize (H f LF). cbn [de_step needr].
  eapply spw_sp, sp_pre, sp_any_D. apply sp_enum; [|intros r; rewrite <- app_assoc; eapply opens_solid, ident_opens; exact HI].
  eapply (sp_enum_id vs k tk (WStruct deny fields)); [exact HI|exact ND|exact IN| | |lia].
  + cbv iota. apply sp_get. intros s _ _. apply sp_ws_lp; [exact L|]. apply sp_map_err.
    eapply sp_text; [apply sp_pre, sp_struct_after_name; exact H|texts].
  + intros r _. rewrite <- app_assoc. now apply lp_ident_end.
Qed.
End Types.
End WithEnv.
