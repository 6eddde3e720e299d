(** What is written for values with raw values in them: their own texts, each
    of which may stand between layout. *)
From Coq Require Import String Ascii NArith ZArith Lia Bool List Permutation.
From Coq Require Import ZifyBool ZifyNat ZifyN.
From Verif Require Import Base Facts Value Data Parse De Span Ser Raw Wp EnvOk Layout Lit Attr LexSafe LexWs LexRead DeSafe DocRead LexDoc Repr Accept
  RangeSpec ReprFacts TypedRead TypedMain Exact RawRead RawSpec RawEmbed RawMain SerLex SerWp SerRepr.
Import ListNotations.
Open Scope N_scope.
Open Scope list_scope.
Open Scope sm_scope.

(** a text between layout *)
Definition loose {A} (R : A -> str -> Prop) (a : A) (t : str) : Prop := exists w t0 w', t = w ++ t0 ++ w' /\ layout w /\ layout w' /\ R a t0.
Lemma loose_plain {A} (R : A -> str -> Prop) a t : R a t -> loose R a t.
Proof. intros H. exists [], t, []. rewrite app_nil_r. split; [reflexivity|]. split; [constructor|]. split; [constructor|exact H]. Qed.
Lemma loose_entry {K V} (RK : K -> str -> Prop) (R : V -> str -> Prop) kv t : entry (loose RK) (loose R) kv t -> loose (entry RK R) kv t.
Proof.
  intros [k tk v tv w w' (a & b & c & -> & L1 & L2 & HK) L L' (a' & b' & c' & -> & L3 & L4 & HV)].
  exists a, (b ++ (c ++ w) ++ c_colon :: (w' ++ a') ++ b'), c'. split; [|split; [assumption|split; [assumption|]]].
  - unfold str, char. rewrite <- ?app_assoc. cbn [app]. rewrite <- ?app_assoc. reflexivity.
  - constructor; auto; now apply layout_app.
Qed.
Lemma loose_items {A} (R : A -> str -> Prop) l t : items (loose R) l t -> exists w t', t = w ++ t' /\ layout w /\ items R l t'.
Proof.
  induction 1 as [|a t w (p & b & q & -> & L1 & L2 & HA) L|a t w w' l ts (p & b & q & -> & L1 & L2 & HA) L L' H (w0 & t' & -> & L0 & IH)].
  - exists [], []. repeat split; constructor.
  - exists p, (b ++ q ++ w). split; [unfold str, char; rewrite <- ?app_assoc; reflexivity|]. split; [assumption|]. constructor; [assumption|now apply layout_app].
  - exists p, (b ++ (q ++ w) ++ c_comma :: (w' ++ w0) ++ t'). split; [|split; [assumption|]].
    + unfold str, char. rewrite <- ?app_assoc. cbn [app]. rewrite <- ?app_assoc. reflexivity.
    + constructor; auto; now apply layout_app.
Qed.
Lemma items_imp {A} (R R' : A -> str -> Prop) l t : (forall a t, R a t -> R' a t) -> items R l t -> items R' l t.
Proof. intros H. induction 1; constructor; auto. Qed.

Section WithEnv.
Context {E : Env} {X : XidOk E} {FO : FloatOk E}.
Variable o : opts.
Variable cfg : option pconf.
Hypothesis VC : valid_config cfg.
Local Notation e := (extensions o cfg).
Hypothesis ou : x_unwrap_variant_newtypes e = false.
Variable tenv : nat -> ty.
Variable fok : fk -> N -> Prop.
Hypothesis HF : forall k b, fok k b -> b < 2 ^ f_bits k /\ canon k b = b.
Variable rn : str -> nat.
Local Notation okr := (okr e tenv fok rn).
Local Notation sf := (sf cfg).

(** a raw value with one value and no attribute in it *)
Definition raw_ok (r : str) : Prop := (rn r <= 128)%nat /\ exists t x d, around t r /\ tight t /\ vacc exts_empty false x t d /\ embeds (Some (rn r)) x t.
Fixpoint plainr (v : val) : Prop :=
  match v with
  | VRaw r => raw_ok r
  | VSome v | VNewtype _ v | VNewVariant _ _ v => plainr v
  | VSeq l | VTuple l | VTupleStruct _ l | VTupVariant _ _ l => all plainr l
  | VMap es => all (fun kv => plainr (fst kv) /\ plainr (snd kv)) es
  | VStruct _ fs | VStructVariant _ _ fs => all (fun kv => plainr (snd kv)) fs
  | v => Repr.plain fok v
  end.
(** [c] under [m] implicit Somes and unwrapped newtypes *)
Inductive deep (c : val) : nat -> val -> Prop :=
  | dp_core : deep c 0 c
  | dp_some m v : deep c m v -> deep c (S m) (VSome v)
  | dp_newtype m n v : x_unwrap_newtypes e = true -> deep c m v -> deep c m (VNewtype n v).
Fixpoint wrapped (m : nat) (t : str) : str := match m with O => t | S m => s_Some_open ++ wrapped m t ++ [c_rp] end.
(** what is written for [v] with [d] implicit Somes pending: nothing for them,
    unless it is None or a raw value in the end *)
Definition textr (d : nat) (v : val) (t : str) : Prop :=
  (okr v t /\ (x_implicit_some e = true -> no_option t)) \/
  exists m c r, deep c m v /\ loose okr c r /\ t = wrapped (d + m) r.
Definition semr (v : val) : Prop := forall i d, ((0 < d)%nat -> x_implicit_some e = true) ->
  em (ser o cfg v) i false d (fun _ t i2 b2 d2 => textr d v t /\ i2 = i /\ b2 = false /\ (d = 0%nat -> d2 = 0%nat)).
Local Notation elemr := (writes o cfg (loose okr)).

Ltac apps := unfold str, char; cbn [app]; rewrite <- ?app_assoc; cbn [app]; rewrite <- ?app_assoc; cbn [app]; rewrite ?app_nil_r; reflexivity.
Lemma loose_text v t t' : t' = t -> okr v t -> loose okr v t'.
Proof. intros ->. apply loose_plain. Qed.
Lemma okr_text v t t' : t' = t -> okr v t -> okr v t'.
Proof. now intros ->. Qed.
Lemma deep_loose c r m v : loose okr c r -> deep c m v -> loose okr v (wrapped m r).
Proof.
  intros HC. induction 1 as [|m v H IH|m n v U H IH]; [exact HC| |].
  - destruct IH as (w & t0 & w' & Q & L & L' & OK). cbn [wrapped]. rewrite Q.
    eapply loose_text; [|apply (okr_some e ou tenv fok rn v t0 [] w w'); auto; constructor]. change s_Some_open with (s_Some ++ [c_lp]). apps.
  - destruct IH as (w & t0 & w' & Q & L & L' & OK). exists w, t0, w'. repeat (split; [assumption|]). now apply okr_newtype_unwrapped.
Qed.
Lemma textr_loose v t : textr 0 v t -> loose okr v t.
Proof. intros [[H _]|(m & c & r & D & HC & ->)]; [now apply loose_plain|now apply (deep_loose c)]. Qed.
Lemma semr_elem v : semr v -> elemr v.
Proof.
  intros H i. eapply em_conseq; [apply (H i 0%nat); intros HD; inversion HD|]. cbn beta. intros _ t i2 b2 d2 (HT & -> & -> & HD).
  split; [now apply textr_loose|auto].
Qed.
(** a text that is no option *)
Lemma textr_plain d v t t' : t' = t -> no_option t -> okr v t -> textr d v t'.
Proof. intros -> NO OK. left. auto. Qed.
Lemma wrapped_concat d r : concat (repeat s_Some_open d) ++ r ++ concat (repeat [c_rp] d) = wrapped d r.
Proof.
  induction d as [|n IH]; [apply app_nil_r|]. cbn [wrapped]. rewrite <- IH.
  assert (RP : forall m, concat (repeat [c_rp] (S m)) = concat (repeat [c_rp] m) ++ [c_rp]).
  { induction m as [|m IHm]; [reflexivity|]. cbn [repeat concat] in *. rewrite IHm at 1. reflexivity. }
  rewrite RP. cbn [repeat concat]. rewrite <- !app_assoc. reflexivity.
Qed.
Lemma semr_raw r : raw_ok r -> semr (VRaw r).
Proof.
  intros (LE & t & x & d0 & AR & TI & HV & EM) i d _. assert (OK := okr_raw e ou tenv fok rn r t x d0 LE AR TI HV EM).
  cbn [ser]. unfold ser_raw. apply em_get. intros s _ _ SD. rewrite SD.
  eapply em_mod_bind with (i' := i) (b' := false) (d' := 0%nat); [auto|intros s' <- <- <-; auto|].
  eapply em_bind with (Q1 := fun _ t i2 b2 d2 => t = concat (repeat s_Some_open d) /\ i2 = i /\ b2 = false /\ d2 = 0%nat).
  { eapply em_emits; [apply emits_n|]. auto. }
  cbn beta. intros _ t1 i1 b1 d1 (-> & -> & -> & ->).
  eapply em_bind with (Q1 := fun _ t i2 b2 d2 => t = r /\ i2 = i /\ b2 = false /\ d2 = 0%nat).
  { apply em_guard, em_write. auto. }
  cbn beta. intros _ t' i2 b2 d2 (-> & -> & -> & ->). eapply em_emits; [apply emits_n|]. split; [|auto].
  right. exists 0%nat, (VRaw r), r. split; [constructor|]. rewrite Nat.add_0_r. split; [|apply wrapped_concat].
  destruct AR as (w & w' & L & L' & ->). exists w, t, w'. auto.
Qed.
Lemma semr_flat v : flat v -> Repr.plain fok v -> semr v.
Proof.
  intros F P i d HD. eapply em_conseq; [apply (sem_flat o cfg fok v HF F P i false d)|].
  - discriminate.
  - exact HD.
  - discriminate.
  - intros C. now destruct v.
  - cbn beta. intros _ t i2 b2 d2 (-> & HB & HD2 & w & t0 & -> & _ & HW & HT). rewrite (HW eq_refl). cbn [app]. split; [|auto].
    assert (NR : forall r, v <> VRaw r) by (intros r ->; exact P).
    destruct HT as [[HR HN]|(IS & m & HN & ->)].
    + left. split; [eapply okr_flat; eauto|]. intros IS. apply HN; [exact IS|discriminate].
    + right. destruct v; inversion HN; subst; try contradiction. exists 0%nat, VNone, s_None. split; [constructor|].
      split; [apply loose_plain; eapply okr_flat with (sf := sf); [exact F|exact NR|apply r_none]|]. generalize (d + 0)%nat. clear. intros m.
      induction m as [|m IH]; [reflexivity|]. cbn [somes wrapped]. rewrite IH. change s_Some_open with (s_Some ++ [c_lp]). apps.
Qed.
Lemma field_loose l t : items (entry (key) (loose okr)) l t -> exists w t', t = w ++ t' /\ layout w /\ items (entry field_key_text okr) l t'.
Proof.
  intros H. apply loose_items. eapply items_imp; [|exact H]. intros a t0 HE. apply loose_entry.
  eapply entry_mono; [| |exact HE]; [|auto]. intros k t1 (-> & V). apply loose_plain. now apply ident_text_lit.
Qed.

Lemma semr_some v : semr v -> semr (VSome v).
Proof.
  intros H i d HD. cbn [ser]. unfold ser_some. rewrite ou. destruct (x_implicit_some e) eqn:IS.
  - eapply em_mod_bind with (i' := i) (b' := false) (d' := S d); [auto|intros s H1 H2 H3; cbn; auto|].
    eapply em_bind; [apply em_guard, H; auto|]. cbn beta. intros _ t i2 b2 d2 (HT & -> & -> & _).
    apply em_mod; [auto|]. intros s SI SB SD. cbn [sset_isd s_indent s_nt s_isd]. split; [|auto]. rewrite app_nil_r.
    destruct HT as [[OK NO]|(m & c & r & DP & HC & ->)].
    + left. split; [apply okr_implicit; auto|auto].
    + right. exists (S m), c, r. split; [now constructor|]. split; [exact HC|]. f_equal. lia.
  - assert (d = 0%nat) by (destruct d; [reflexivity|discriminate HD; lia]). subst d.
    eapply em_mod_bind with (i' := i) (b' := false) (d' := 0%nat); [auto|intros s H1 H2 H3; cbn; auto|].
    apply em_write_bind. eapply em_bind; [apply em_guard, (semr_elem v H)|]. cbn beta. intros _ t i2 b2 d2 ((w & t0 & w' & -> & L & L' & OK) & -> & -> & ->).
    apply em_write_bind. apply em_mod; [auto|]. intros s SI SB SD. cbn [sset_nt s_indent s_nt s_isd]. split; [|auto].
    left. split; [|intros C; congruence]. eapply okr_text; [|apply (okr_some e ou tenv fok rn v t0 [] w w'); auto; constructor]. change s_Some_open with (s_Some ++ [c_lp]). apps.
Qed.
Lemma semr_newtype n v : semr v -> semr (VNewtype n v).
Proof.
  intros H i d HD. cbn [ser]. unfold ser_newtype. apply em_get. intros s _ NT _. rewrite NT, orb_false_r. destruct (x_unwrap_newtypes e) eqn:U.
  - eapply em_mod_bind with (i' := i) (b' := false) (d' := d); [auto|intros s' H1 H2 H3; cbn; auto|].
    eapply puts_bind; [apply puts_validate|]. intros t (-> & _). cbn [app].
    eapply em_conseq; [apply em_guard, H, HD|]. cbn beta. intros _ t i2 b2 d2 (HT & HH). split; [|exact HH].
    destruct HT as [[OK NO]|(m & c & r & DP & HC & ->)]; [left; split; [now apply okr_newtype_unwrapped|exact NO]|].
    right. exists m, c, r. split; [now constructor|auto].
  - eapply puts_bind; [apply puts_name|]. intros tn HN.
    eapply em_mod_bind with (i' := i) (b' := false) (d' := 0%nat); [auto|intros s' H1 H2 H3; cbn; auto|].
    apply em_write_bind. eapply em_bind; [apply em_guard, (semr_elem v H)|]. cbn beta. intros _ t i2 b2 d2 ((w & t0 & w' & -> & L & L' & OK) & -> & -> & ->).
    apply em_write. split; [|auto]. eapply textr_plain; [| |apply (okr_newtype e ou tenv fok rn sf n v tn t0 w w'); auto; apply HN]; [apps|now apply (named_no_option o cfg n)].
Qed.
Lemma semr_new_variant n k v : elemr v -> semr (VNewVariant n k v).
Proof.
  intros H i d _. cbn [ser]. unfold ser_newtype_variant.
  eapply puts_bind; [apply puts_validate|]. intros t (-> & _). cbn [app].
  eapply puts_bind; [apply puts_ident|]. intros tk (-> & V).
  apply em_write_bind. eapply em_mod_bind with (i' := i) (b' := false) (d' := 0%nat); [auto|intros s' H1 H2 H3; cbn; auto|].
  eapply em_bind; [apply em_guard, H|]. cbn beta. intros _ t i2 b2 d2 ((w & t0 & w' & -> & L & L' & OK) & -> & -> & ->).
  eapply em_mod_bind with (i' := i) (b' := false) (d' := 0%nat); [auto|intros s' H1 H2 H3; cbn; auto|].
  apply em_write. split; [|auto]. eapply textr_plain; [| |apply (okr_new_variant e ou tenv fok rn n k v (ident_text k) t0 [] w w'); auto; [now apply ident_text_lit|constructor]]; [apps|apply no_option_app; [now apply ident_text_no_option|apply lp_not_xid]].
Qed.
Lemma semr_seq l : all elemr l -> semr (VSeq l).
Proof.
  intros H i d _. cbn [ser]. eapply em_bind; [apply em_open; exact VC|]. cbn beta. intros _ t i2 b2 d2 ((w & L & ->) & -> & -> & ->).
  apply (em_block cfg VC (fun c v => seq_elem cfg c (ser o cfg v)) fst (loose okr) i l (true, 0%nat) wide_seq (negb (compact_arrays cfg))
    (fun _ => write [c_rb] ;~ drop_compound)); [intros a IN; apply seq_steps; [exact VC|]; now apply (proj1 (all_in _ _) H)|reflexivity|].
  intros w' ti c' L' IT. apply em_write_bind. eapply em_conseq; [apply em_drop|]. cbn beta. intros [] t i2 b2 d2 (-> & -> & -> & ->).
  apply loose_items in IT as (w0 & t0 & -> & L0 & IT). split; [|auto].
  eapply textr_plain; [| |apply (okr_seq e ou tenv fok rn l t0 (w ++ w' ++ w0)); [now repeat apply layout_app|exact IT]]; [apps|apply no_option_head; discriminate].
Qed.
Lemma semr_map l : all (fun kv => elemr (fst kv) /\ elemr (snd kv)) l -> semr (VMap l).
Proof.
  intros H i d _. cbn [ser]. eapply em_bind; [apply em_open; exact VC|]. cbn beta. intros _ t i2 b2 d2 ((w & L & ->) & -> & -> & ->).
  eapply em_ext with (m' := f <~ loop (fun c kv => map_entry cfg c (ser o cfg (fst kv)) (ser o cfg (snd kv))) l true ;; map_close cfg f).
  { intros s. apply sbind_ext; [|auto]. clear. generalize true. induction l as [|[k v] l IH]; intros c s; [reflexivity|].
    cbn [loop fst snd]. apply sbind_ext; auto. }
  apply (em_block cfg VC (fun c kv => map_entry cfg c (ser o cfg (fst kv)) (ser o cfg (snd kv))) (fun b => b) (entry (loose okr) (loose okr)) i l true wide_map (negb (compact_maps cfg))
    (fun _ => write [c_rc] ;~ drop_compound)); [intros a IN; apply map_steps; [exact VC|]; now apply (proj1 (all_in _ _) H)|reflexivity|].
  intros w' ti c' L' IT. apply em_write_bind. eapply em_conseq; [apply em_drop|]. cbn beta. intros [] t i2 b2 d2 (-> & -> & -> & ->).
  apply (items_imp _ _ _ _ (loose_entry okr okr)), loose_items in IT as (w0 & t0 & -> & L0 & IT). split; [|auto].
  eapply textr_plain; [| |apply (okr_map e ou tenv fok rn l t0 (w ++ w' ++ w0)); [now repeat apply layout_app|exact IT]]; [apps|apply no_option_head; discriminate].
Qed.
Lemma semr_tuple l : all elemr l -> semr (VTuple l).
Proof.
  intros H i d _. cbn [ser]. eapply em_bind; [apply em_tuple_open; exact VC|]. cbn beta. intros ntv t i2 b2 d2 ((-> & w & L & ->) & -> & -> & ->).
  apply (em_tuple_block o cfg VC (loose okr) l i false H). intros w' ti L' IT. apply loose_items in IT as (w0 & t0 & -> & L0 & IT). split; [|auto].
  eapply textr_plain; [| |apply (okr_tuple e ou tenv fok rn l t0 (w ++ w' ++ w0)); [now repeat apply layout_app|exact IT]]; [apps|apply no_option_head; discriminate].
Qed.
Lemma semr_tuple_struct n l : all elemr l -> semr (VTupleStruct n l).
Proof.
  intros H i d _. cbn [ser].
  eapply em_bind with (Q1 := fun ntv t i2 b2 d2 => (ntv = false /\ exists tn w, named o cfg n tn /\ layout w /\ t = tn ++ [c_lp] ++ w) /\
     i2 = wider cfg (separate_tuple_members cfg) i /\ b2 = false /\ d2 = 0%nat).
  { unfold tuple_struct_open. apply em_get. intros s _ NT _. rewrite NT. cbn [negb].
    rewrite andb_true_r. eapply puts_bind; [apply puts_name|]. intros tn HN.
    eapply em_conseq; [apply em_tuple_open; exact VC|]. cbn beta. intros ntv t i2 b2 d2 ((-> & w & L & ->) & -> & -> & ->).
    split; [|auto]. split; [reflexivity|]. exists tn, w. auto. }
  cbn beta. intros ntv t i2 b2 d2 ((-> & tn & w & HN & L & ->) & -> & -> & ->).
  apply (em_tuple_block o cfg VC (loose okr) l i false H). intros w' ti L' IT. apply loose_items in IT as (w0 & t0 & -> & L0 & IT). split; [|auto].
  eapply textr_plain; [| |apply (okr_tuple_struct e ou tenv fok rn sf n l tn t0 (w ++ w' ++ w0)); [apply HN|now repeat apply layout_app|exact IT]]; [apps|now apply (named_no_option o cfg n)].
Qed.
Lemma semr_tup_variant n k l : all elemr l -> semr (VTupVariant n k l).
Proof.
  intros H i d _. cbn [ser].
  eapply em_bind with (Q1 := fun ntv t i2 b2 d2 => (ntv = false /\ exists w, valid_identifier k = true /\ layout w /\ t = ident_text k ++ [c_lp] ++ w) /\
     i2 = wider cfg (separate_tuple_members cfg) i /\ b2 = false /\ d2 = 0%nat).
  { unfold tuple_variant_open. eapply em_mod_bind with (i' := i) (b' := false) (d' := 0%nat); [auto|intros s' H1 H2 H3; cbn; auto|].
    eapply puts_bind; [apply puts_validate|]. intros t (-> & _). eapply puts_bind; [apply puts_ident|]. intros tk (-> & V).
    apply em_write_bind. eapply lays_bind; [apply lays_open; exact VC|]. intros w L. apply em_ret. rewrite app_nil_r. split; [|auto]. eauto. }
  cbn beta. intros ntv t i2 b2 d2 ((-> & w & V & L & ->) & -> & -> & ->).
  apply (em_tuple_block o cfg VC (loose okr) l i false H). intros w' ti L' IT. apply loose_items in IT as (w0 & t0 & -> & L0 & IT). split; [|auto].
  eapply textr_plain; [| |apply (okr_tup_variant e ou tenv fok rn n k l (ident_text k) t0 [] (w ++ w' ++ w0)); [now apply ident_text_lit|constructor|now repeat apply layout_app|exact IT]]; [apps|apply no_option_app; [now apply ident_text_no_option|apply lp_not_xid]].
Qed.
Lemma semr_struct n l : all (fun kv => elemr (snd kv)) l -> all (fun kv => plainr (snd kv)) l -> ranges_ok e cfg false (VStruct n l) -> semr (VStruct n l).
Proof.
  intros H PL RF i d _. cbn [ser]. destruct (range_kind_of cfg n (length l)) as [rk|] eqn:RK.
  { eapply em_ext with (m' := smod (fun s => sset_isd 0 (sset_nt false s)) ;~ range_ser o cfg rk l); [reflexivity|].
    assert (CR : compact_ranges cfg = true /\ range_named n (length l) = true) by (destruct (range_kind_named cfg n (length l)); [congruence|assumption]).
    destruct CR as [CR NM]. assert (RFN := RF CR). cbn [range_fine] in RFN. destruct (numeric_range n l) eqn:NU.
    - destruct RFN as [WI RFN]. assert (NB : forallb (fun kv => is_number (snd kv)) l = true) by (unfold numeric_range in NU; now apply andb_prop in NU).
      eapply em_conseq; [apply (em_range o cfg rk n l i false d RK NU); [|exact WI|exact RFN|discriminate|exact CR]|].
      + rewrite all_in in *. intros kv IN. specialize (PL kv IN). rewrite forallb_forall in NB. specialize (NB kv IN). destruct (snd kv); try discriminate; [exact PL|]. now apply HF.
      + intros _ t i2 b2 d2 (-> & HB & HD & w & t0 & -> & _ & HW & HT). rewrite (HW eq_refl). cbn [app]. rewrite (HB eq_refl). split; [|auto].
        destruct HT as [[HR NO]|(_ & m & NN & _)]; [|inversion NN]. left. split; [apply (okr_numbers e tenv fok rn sf); [exact NB|exact HR]|].
        intros IS. apply NO; [exact IS|discriminate].
    - destruct RFN as [RN RL]. destruct (RN NM) as [XN _].
      eapply em_mod_bind with (i' := i) (b' := false) (d' := 0%nat); [auto|intros s' H1 H2 H3; cbn; auto|].
      eapply em_ext; [intros s; exact (range_falls o cfg rk n l s RK NU)|]. unfold fall_back. apply em_write_bind.
      eapply lays_bind; [apply lays_open; exact VC|]. intros w L. apply (em_struct_block o cfg VC (loose okr) l i false H). intros w' ti L' IT.
      apply field_loose in IT as (w0 & t0 & -> & L0 & IT). split; [|auto].
      eapply textr_plain; [| |apply (okr_struct e ou tenv fok rn sf n l [] t0 (w ++ w' ++ w0)); [now apply nm_none|now repeat apply layout_app|exact IT]]; [apps|apply no_option_head; discriminate]. }
  eapply em_bind with (Q1 := fun ntv t i2 b2 d2 => (ntv = false /\ exists tn w, named o cfg n tn /\ layout w /\ t = tn ++ [c_lp] ++ w) /\
     i2 = wider cfg (negb (compact_structs cfg)) i /\ b2 = false /\ d2 = 0%nat).
  { unfold struct_open. apply em_get. intros s _ NT _. rewrite NT.
    eapply em_mod_bind with (i' := i) (b' := false) (d' := 0%nat); [auto|intros s' H1 H2 H3; cbn; auto|].
    eapply em_bind with (Q1 := fun _ t i2 b2 d2 => (exists tn, named o cfg n tn /\ t = tn ++ [c_lp]) /\ i2 = i /\ b2 = false /\ d2 = 0%nat).
    { eapply puts_bind; [apply puts_name|]. intros tn HN. apply em_write. split; [|auto]. eauto. }
    cbn beta. intros _ t i2 b2 d2 ((tn & HN & ->) & -> & -> & ->).
    eapply lays_bind; [apply lays_open; exact VC|]. intros w L. apply em_ret. rewrite app_nil_r. split; [|auto].
    split; [reflexivity|]. exists tn, w. rewrite <- app_assoc. auto. }
  cbn beta. intros ntv t i2 b2 d2 ((-> & tn & w & HN & L & ->) & -> & -> & ->).
  apply (em_struct_block o cfg VC (loose okr) l i false H). intros w' ti L' IT. apply field_loose in IT as (w0 & t0 & -> & L0 & IT). split; [|auto].
  eapply textr_plain; [| |apply (okr_struct e ou tenv fok rn sf n l tn t0 (w ++ w' ++ w0)); [apply HN|now repeat apply layout_app|exact IT]]; [apps|now apply (named_no_option o cfg n)].
Qed.
Lemma semr_struct_variant n k l : all (fun kv => elemr (snd kv)) l -> semr (VStructVariant n k l).
Proof.
  intros H i d _. cbn [ser].
  eapply em_bind with (Q1 := fun ntv t i2 b2 d2 => (ntv = false /\ exists w, valid_identifier k = true /\ layout w /\ t = ident_text k ++ [c_lp] ++ w) /\
     i2 = wider cfg (negb (compact_structs cfg)) i /\ b2 = false /\ d2 = 0%nat).
  { unfold struct_variant_open. eapply em_mod_bind with (i' := i) (b' := false) (d' := 0%nat); [auto|intros s' H1 H2 H3; cbn; auto|].
    eapply puts_bind; [apply puts_validate|]. intros t (-> & _). eapply puts_bind; [apply puts_ident|]. intros tk (-> & V).
    apply em_write_bind. eapply lays_bind; [apply lays_open; exact VC|]. intros w L. apply em_ret. rewrite app_nil_r. split; [|auto]. eauto. }
  cbn beta. intros ntv t i2 b2 d2 ((-> & w & V & L & ->) & -> & -> & ->).
  apply (em_struct_block o cfg VC (loose okr) l i false H). intros w' ti L' IT. apply field_loose in IT as (w0 & t0 & -> & L0 & IT). split; [|auto].
  eapply textr_plain; [| |apply (okr_struct_variant e ou tenv fok rn n k l (ident_text k) t0 [] (w ++ w' ++ w0)); [now apply ident_text_lit|constructor|now repeat apply layout_app|exact IT]]; [apps|apply no_option_app; [now apply ident_text_no_option|apply lp_not_xid]].
Qed.

(** every value *)
Theorem ser_semr v : plainr v -> ranges_ok e cfg false v -> semr v.
Proof.
  induction v as [v F|v IH|n v IH|l IH|l IH|n l IH|l IH|n l IH|n k v IH|n k l IH|n k l IH] using val_ind'; intros P RF; cbn [plainr] in P.
  - destruct v; try contradiction; try (apply semr_flat; [exact F|exact P]). now apply semr_raw.
  - apply semr_some, IH; [exact P|]. intros C. specialize (RF C). cbn [range_fine] in RF. rewrite ou in RF. now destruct (x_implicit_some e).
  - apply semr_newtype. auto.
  - apply semr_seq. rewrite all_in in *. intros a IN. apply semr_elem, IH; auto. intros C. specialize (RF C). cbn [range_fine] in RF. rewrite all_in in RF. auto.
  - apply semr_tuple. rewrite all_in in *. intros a IN. apply semr_elem, IH; auto. intros C. specialize (RF C). cbn [range_fine] in RF. rewrite all_in in RF. auto.
  - apply semr_tuple_struct. rewrite all_in in *. intros a IN. apply semr_elem, IH; auto. intros C. specialize (RF C). cbn [range_fine] in RF. rewrite all_in in RF. auto.
  - apply semr_map. rewrite all_in in *. intros a IN. destruct (IH a IN) as [I1 I2], (P a IN).
    split; apply semr_elem; [apply I1|apply I2]; auto; intros C; specialize (RF C); cbn [range_fine] in RF; rewrite all_in in RF; now apply RF.
  - apply semr_struct; [|exact P|exact RF]. rewrite all_in in *. intros a IN. apply semr_elem, IH; auto. intros C. specialize (RF C). cbn [range_fine] in RF.
    destruct (numeric_range n l) eqn:NU; [|destruct RF as [_ RF]; rewrite all_in in RF; auto].
    unfold numeric_range in NU. apply andb_prop in NU as [_ NU]. rewrite forallb_forall in NU. specialize (NU a IN). now destruct (snd a).
  - apply semr_new_variant, semr_elem, IH; [exact P|]. intros C. specialize (RF C). cbn [range_fine] in RF. now rewrite ou in RF.
  - apply semr_tup_variant. rewrite all_in in *. intros a IN. apply semr_elem, IH; auto. intros C. specialize (RF C). cbn [range_fine] in RF. rewrite all_in in RF. auto.
  - apply semr_struct_variant. rewrite all_in in *. intros a IN. apply semr_elem, IH; auto. intros C. specialize (RF C). cbn [range_fine] in RF. rewrite all_in in RF. auto.
Qed.
Theorem to_string_okr v text : plainr v -> ranges_ok e cfg false v -> to_string o cfg v = inl text ->
  exists a x w t w', text = a ++ w ++ t ++ w' /\ attrs_text a x /\ exts_or x (o_exts o) = e /\ layout w /\ layout w' /\ okr v t.
Proof.
  intros P RF TS. destruct (emits_new o cfg VC) as (a & x & EA & HA & EX).
  unfold to_string, to_writer in TS. unfold sbind in TS. rewrite EA in TS by reflexivity.
  assert (S := semr_elem v (ser_semr v P RF) 0%nat). specialize (S (sset_out (w_out (ser_init o cfg None) ++ a) (ser_init o cfg None)) eq_refl eq_refl eq_refl eq_refl).
  destruct (ser o cfg v _) as [u s'| |]; [|discriminate|contradiction]. destruct S as (t & OUT & _ & ((w & t0 & w' & -> & L & L' & OK) & _)).
  injection TS as <-. exists a, x, w, t0, w'. rewrite OUT. split; [reflexivity|]. auto.
Qed.
End WithEnv.
