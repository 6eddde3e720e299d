(** What the serializer writes is read into serde's buffer (C53): the text of a
    value within the restrictions of README.md:181-220 is one of [crepr], for a
    buffer that holds the value. *)
From Coq Require Import String Ascii NArith ZArith Lia Bool List.
From Coq Require Import ZifyBool ZifyNat ZifyN.
From Verif Require Import Base Facts Value Data Parse De Span Ser Wp EnvOk Layout Lit Attr ShowFacts LexSafe LexWs LexRead DocSafe DocRead SerLex LexDoc Typing ValueFacts Repr ReprFacts TypedRead TypedMain VRepr AnyRead AnyMain Unwrap IntoRust Content ContentRead RangeSpec SerNum SerWp SerRepr SerOk ThmTyped ThmUnwrap ThmThrough Buffered.
Import ListNotations.
Open Scope N_scope.
Open Scope list_scope.
Open Scope sm_scope.

Section Int.
Context {E : Env} {X : XidOk E}.
Lemma int_any t z k : int_lit t z -> in_range k z = true -> int_supported k = true ->
  exists k', num_text (NInt k' z) t /\ (is_128 k' = true -> is_128 k = true).
Proof.
  intros H R SU. destruct H as [s neg p base ds z SG BP IN].
  assert (Z0 : (0 <= z)%Z) by (eapply int_number_nonneg; [eapply prefix_nonneg|]; eassumption).
  assert (LK : exists k', least_kind neg (signed_value neg z) = Some k' /\ (is_128 k' = true -> is_128 k = true)).
  { destruct (Bool.eqb neg (signed_value neg z <? 0)%Z) eqn:Q.
    - apply eqb_prop in Q. destruct (least_kind_some k _ SU R) as [k' LK]. exists k'. split; [rewrite <- Q in LK; exact LK|].
      intros H. destruct (is_128 k) eqn:K; [reflexivity|]. rewrite <- H. symmetry. eapply least_kind_128; eassumption.
    - assert (neg = true /\ z = 0%Z) as [-> ->] by (apply eqb_false_iff in Q; unfold signed_value in Q; destruct neg; [destruct (Z.ltb_spec (- z) 0)|destruct (Z.ltb_spec z 0)]; try congruence; split; [reflexivity|lia|lia|lia]). exists I8. split; [|discriminate].
      unfold least_kind, int_kinds. cbn [filter]. unfold int_supported at 1. cbn [is_128 negb]. rewrite orb_true_r. reflexivity. }
  destruct LK as (k' & LK & K). exists k'. split; [|exact K]. econstructor; eassumption.
Qed.
End Int.

Section Write.
Context {E : Env} {X : XidOk E} {FO : FloatOk E}.
Variables (o : opts) (cfg : option pconf).
Hypothesis VC : valid_config cfg.
Hypothesis SN : struct_names o cfg = false.
Local Notation e := (extensions o cfg).
Local Notation u := (x_unwrap_variant_newtypes (extensions o cfg)).
Variable fok : fk -> N -> Prop.
Hypothesis HF : forall k b, fok k b -> exists n, num_text n (SerLex.float_text k b ++ if number_suffixes cfg then fk_suffix k else []) /\
  num_into n (TFloat k) = Some (VFloat k b).

Hypothesis HC : forall k b, fok k b -> b < 2 ^ f_bits k /\ canon k b = b.

(** ** The texts *)
(** None below [m] Somes *)
Fixpoint none_depth (v : val) : option nat :=
  match v with
  | VNone => Some O
  | VSome v => option_map S (none_depth v)
  | _ => None
  end.
Fixpoint nones (m : nat) : value := match m with O => XNone | S m => XSome (nones m) end.
Lemma nones_buffer m : forall v, none_depth v = Some m -> buffers v (nones m).
Proof.
  induction m as [|m IH]; intros v H; destruct v; try discriminate H; cbn in H.
  - constructor.
  - destruct (none_depth v); discriminate H.
  - destruct (none_depth v) as [m'|] eqn:Q; [|discriminate]. injection H as ->. cbn [nones]. apply bf_some. now apply IH.
Qed.
Lemma nones_need m : forall v, none_depth v = Some m -> (m <= need v)%nat.
Proof.
  induction m as [|m IH]; intros v H; [lia|]. destruct v; try discriminate H. cbn in H.
  destruct (none_depth v) as [m'|] eqn:Q; [|discriminate]. injection H as ->. apply IH in Q. cbn [need]. lia.
Qed.
Lemma nones_text m : forall c, (m <= c)%nat -> crepr u c (nones m) (SerRepr.somes m).
Proof.
  induction m as [|m IH]; intros c LE; cbn [nones SerRepr.somes]; [apply c_none|]. destruct c as [|c]; [lia|].
  assert (H : crepr u c (nones m) (SerRepr.somes m)) by (apply IH; lia).
  destruct u eqn:U; [apply c_some_unwrapped; [reflexivity|now apply ca_one]|now apply c_some].
Qed.

(** an element *)
Definition EL (v : val) (t : str) : Prop := exists x, buffers v x /\ forall c, (need v <= c)%nat -> crepr u c x t.
(** the inside of parentheses *)
Definition AR (v : val) (t : str) : Prop :=
  exists x, buffers v x /\ forall c, (need v <= c)%nat -> carg (crepr u) c x t /\ (u = false -> crepr u c x t).
Definition WB (b : bool) (v : val) (t : str) : Prop :=
  exists x, buffers v x /\ (x_implicit_some e = true -> is_unit v = false -> none_depth v = None -> settled x) /\
    forall c, (need v <= c)%nat -> if b then carg (crepr u) c x t else crepr u c x t.
Definition written (b : bool) (d : nat) (v : val) (t : str) : Prop :=
  match (if x_implicit_some e then none_depth v else None) with
  | Some m => t = SerRepr.somes (d + m)
  | None => WB b v t
  end.
Definition wpost (i : nat) (b : bool) (d : nat) (v : val) : unit -> str -> nat -> bool -> nat -> Prop :=
  fun _ t i' b' d' => i' = i /\ (b = false -> b' = false) /\ (d = 0%nat -> d' = 0%nat) /\ written b d v t.
Definition sem (v : val) : Prop := forall i b d,
  (b = true -> u = true) -> ((0 < d)%nat -> x_implicit_some e = true) -> restricted e (compact_ranges cfg) b v -> em (ser o cfg v) i b d (wpost i b d v).

Lemma written_elem v t : written false 0 v t -> EL v t.
Proof.
  unfold written. destruct (if x_implicit_some e then none_depth v else None) as [m|] eqn:Q.
  - intros ->. assert (Q' : none_depth v = Some m) by (destruct (x_implicit_some e); [exact Q|discriminate]).
    exists (nones m). split; [now apply nones_buffer|]. intros c LE. apply nones_text. apply nones_need in Q'. lia.
  - intros (x & B & _ & H). exists x. auto.
Qed.
Lemma written_arg v t : written u 0 v t -> AR v t.
Proof.
  unfold written. destruct (if x_implicit_some e then none_depth v else None) as [m|] eqn:Q.
  - intros ->. assert (Q' : none_depth v = Some m) by (destruct (x_implicit_some e); [exact Q|discriminate]).
    exists (nones m). split; [now apply nones_buffer|]. intros c LE. assert (H : crepr u c (nones m) (SerRepr.somes m)) by (apply nones_text; apply nones_need in Q'; lia).
    split; [now apply ca_one|auto].
  - intros (x & B & _ & H). exists x. split; [exact B|]. intros c LE. specialize (H c LE). destruct u; [split; [exact H|discriminate]|]. split; [now apply ca_one|auto].
Qed.
Lemma sem_elem v i : sem v -> restricted e (compact_ranges cfg) false v -> em (ser o cfg v) i false 0
  (fun _ t i' b' d' => EL v t /\ i' = i /\ b' = false /\ d' = 0%nat).
Proof.
  intros H R. eapply em_conseq; [apply H; [discriminate|lia|exact R]|]. cbn beta. intros _ t i' b' d' (-> & HB & HD & W).
  split; [now apply written_elem|auto].
Qed.
Lemma sem_arg v i : sem v -> restricted e (compact_ranges cfg) u v -> em (ser o cfg v) i u 0
  (fun _ t i' b' d' => AR v t /\ i' = i /\ d' = 0%nat).
Proof.
  intros H R. eapply em_conseq; [apply H; [auto|lia|exact R]|]. cbn beta. intros _ t i' b' d' (-> & HB & HD & W).
  split; [now apply written_arg|auto].
Qed.
Lemma written_plain b d v x t : none_depth v = None -> buffers v x -> (is_unit v = false -> settled x) ->
  (forall c, (need v <= c)%nat -> crepr u c x t) -> written b d v t.
Proof.
  intros N B ST H. unfold written. rewrite N. replace (if x_implicit_some e then None else None) with (@None nat) by now destruct (x_implicit_some e).
  exists x. split; [exact B|]. split; [auto|]. intros c LE. specialize (H c LE). destruct b; [now apply ca_one|exact H].
Qed.
Lemma written_args d v x t : none_depth v = None -> buffers v x -> (is_unit v = false -> settled x) ->
  (forall c, (need v <= c)%nat -> carg (crepr u) c x t) -> written true d v t.
Proof.
  intros N B ST H. unfold written. rewrite N. replace (if x_implicit_some e then None else None) with (@None nat) by now destruct (x_implicit_some e).
  exists x. auto.
Qed.

(** ** Leaves *)
Lemma em_leaf m v x t i b d : emits m t -> none_depth v = None -> buffers v x -> (is_unit v = false -> settled x) ->
  (forall c, crepr u c x t) -> em m i b d (wpost i b d v).
Proof.
  intros EM N B ST H. apply (em_emits _ t); [exact EM|]. repeat split; auto. eapply written_plain; eauto.
Qed.
Lemma variant_name k : valid_identifier k = true -> ident_lit (ident_text k) k /\ ~ In (ident_text k) keywords.
Proof. intros V. split; [now apply ident_text_lit|]. exact (ident_text_name cfg k V). Qed.
Lemma int_written k z : int_supported k = true -> in_range k z = true -> is_128 k = false ->
  exists k', num_text (NInt k' z) (show_Z z ++ if number_suffixes cfg then ik_suffix k else []) /\ is_128 k' = false.
Proof.
  intros SP IR RS. destruct (number_suffixes cfg).
  - exists k. split; [apply n_int_suffix; [exact SP|apply show_Z_lit|exact IR]|exact RS].
  - rewrite app_nil_r. destruct (int_any (show_Z z) z k) as (k' & NT & K); [apply show_Z_lit|exact IR|exact SP|]. exists k'. split; [exact NT|].
    destruct (is_128 k'); [|reflexivity]. rewrite K in RS by reflexivity. discriminate.
Qed.
Lemma sem_flat v : flat v -> plain fok v -> (forall k z, v = VInt k z -> in_range k z = true) -> sem v.
Proof.
  intros F P IR i b d HB HD RS. destruct v; try contradiction; cbn [ser].
  - eapply em_leaf; [apply emits_write|reflexivity|constructor|intros _; exact Logic.I|]. intros c. destruct b0; constructor.
  - cbn [restricted] in RS. destruct (int_supported k) eqn:SP; [|unfold ser_int; rewrite SP; apply em_fail].
    specialize (IR k z eq_refl).
    destruct (int_written k z SP IR RS) as (k' & NT & K).
    eapply em_leaf with (x := XNum (NInt k' z)); [now apply emits_int|reflexivity| |intros _; exact Logic.I|intros c; apply c_num; [exact NT|exact K]].
    apply bf_int; [exact RS|]. cbn. now rewrite K, IR.
  - destruct (HF _ _ P) as (n & NT & NI).
    eapply em_leaf; [apply emits_float|reflexivity|apply bf_float; exact NI|intros _; exact Logic.I|intros c; apply c_num; [exact NT|]].
    destruct n as [k' z|k' z]; [|reflexivity]. cbn in NI. cbn. destruct (is_128 k'); [discriminate|reflexivity].
  - destruct (emits_char c) as (t & EM & CL). eapply em_leaf; [exact EM|reflexivity|constructor|intros _; exact Logic.I|intros c0; now constructor].
  - destruct (emits_str cfg s) as (t & EM & CL); [exact P|]. eapply em_leaf; [exact EM|reflexivity|constructor|intros _; exact Logic.I|intros c; now apply c_str].
  - destruct (emits_bytes cfg b0) as (t & EM & CL); [exact P|]. eapply em_leaf; [exact EM|reflexivity|constructor|intros _; exact Logic.I|intros c; now constructor].
  - unfold ser_unit. apply em_get. intros s _ NT _. rewrite NT. destruct b.
    + apply em_ret. repeat split; auto. eapply written_args; [reflexivity|constructor|discriminate|]. intros c _. apply ca_unit.
    + apply em_write. repeat split; auto. eapply written_plain; [reflexivity|constructor|discriminate|]. intros c _. apply c_unit.
  - unfold ser_unit_struct. destruct (compact_ranges cfg && str_eqb name s_RangeFull).
    { eapply em_leaf; [apply emits_write|reflexivity|constructor|discriminate|]. intros c. apply c_range; [constructor|reflexivity]. }
    apply em_get. intros s _ NT _. rewrite SN. cbn [andb].
    eapply puts_bind; [apply puts_validate|]. intros t (-> & V). unfold ser_unit. apply em_get. intros s' _ NT' _. rewrite NT'. destruct b.
    + apply em_ret. repeat split; auto. eapply written_args; [reflexivity|constructor|discriminate|]. intros c _. apply ca_unit.
    + apply em_write. repeat split; auto. eapply written_plain; [reflexivity|constructor|discriminate|]. intros c _. apply c_unit.
  - unfold ser_none. apply em_get. intros s _ _ SD. rewrite SD.
    eapply em_mod_bind with (i' := i) (b' := b) (d' := 0%nat); [auto|intros s' <- <- <-; auto|].
    apply (em_emits _ (SerRepr.somes d)).
    { rewrite <- somes_concat. apply emits_seq; [apply emits_n|]. apply emits_seq; [apply emits_write|apply emits_n]. }
    repeat split; auto. unfold written. destruct (x_implicit_some e) eqn:IS; cbn [none_depth]; [now rewrite Nat.add_0_r|].
    assert (d = 0%nat) as -> by (destruct d; [reflexivity|]; specialize (HD ltac:(lia)); congruence).
    exists XNone. split; [constructor|]. split; [discriminate|]. intros c _. destruct b; [apply ca_one|]; apply c_none.
  - unfold ser_unit_variant. eapply puts_bind; [apply puts_validate|]. intros t (-> & _).
    eapply em_conseq; [apply puts_ident|]. cbn beta. intros [] t i2 b2 d2 ((-> & V) & -> & -> & ->). repeat split; auto.
    eapply written_plain; [reflexivity|constructor|intros _; exact Logic.I|]. intros c _. cbn [app]. apply c_unit_variant; now apply variant_name.
Qed.

(** ** Options and newtype variants *)
Lemma sem_some v : sem v -> sem (VSome v).
Proof.
  intros H i b d HB HD RS. cbn [ser]. unfold ser_some. cbn [restricted] in RS.
  destruct (x_implicit_some e) eqn:IS.
  - destruct RS as [NU RS]. eapply em_mod_bind with (i' := i) (b' := b) (d' := S d); [auto|intros s H1 H2 H3; cbn; auto|].
    eapply em_bind; [apply em_guard, (H i b (S d)); [exact HB|auto|exact RS]|].
    intros [] t i' b' d' (-> & PB & _ & W).
    apply em_mod; [auto|]. intros s SI SB SD. cbn [sset_isd s_indent s_nt s_isd]. rewrite app_nil_r. split; [exact SI|]. split; [intros ->; rewrite SB; auto|].
    split; [auto|]. unfold written in *. rewrite IS in *. cbn [none_depth]. destruct (none_depth v) as [m|] eqn:ND; cbn [option_map].
    + rewrite W. f_equal. lia.
    + destruct W as (x & B & ST & W). specialize (ST IS NU ND). exists x. split; [now apply bf_implicit|]. split; [auto|].
      intros c LE. apply W. cbn [need] in LE. lia.
  - eapply em_mod_bind with (i' := i) (b' := u) (d' := d); [auto|intros s H1 H2 H3; cbn; auto|].
    assert (d = 0%nat) as -> by (destruct d; [reflexivity|]; specialize (HD ltac:(lia)); congruence).
    apply em_write_bind. eapply em_bind; [apply em_guard, sem_arg; [exact H|exact RS]|].
    intros [] t i' b' d' ((x & B & W) & -> & ->).
    apply em_write_bind. apply em_mod; [auto|]. intros s SI SB SD. cbn [sset_nt s_indent s_nt s_isd]. split; [exact SI|]. split; [auto|].
    split; [intros _; exact SD|]. rewrite app_nil_r. unfold written. rewrite IS. exists (XSome x). split; [now constructor|].
    split; [congruence|]. intros c LE. cbn [need] in LE. destruct c as [|c]; [lia|]. destruct (W c ltac:(lia)) as [W1 W2].
    assert (C : crepr u (S c) (XSome x) (s_Some_open ++ t ++ [c_rp])).
    { change (s_Some_open ++ t ++ [c_rp]) with (s_Some ++ c_lp :: t ++ [c_rp]). destruct u eqn:U; [now apply c_some_unwrapped|apply c_some; auto]. }
    destruct b; [now apply ca_one|exact C].
Qed.
Lemma sem_new_variant n k v : sem v -> sem (VNewVariant n k v).
Proof.
  intros H i b d HB HD RS. cbn [ser]. unfold ser_newtype_variant.
  eapply puts_bind; [apply puts_validate|]. intros t (-> & _). cbn [app].
  eapply puts_bind; [apply puts_ident|]. intros tk (-> & V).
  apply em_write_bind. eapply em_mod_bind with (i' := i) (b' := u) (d' := 0%nat); [auto|intros s' H1 H2 H3; cbn; auto|].
  eapply em_bind; [apply em_guard, sem_arg; [exact H|exact RS]|].
  intros [] t i' b' d' ((x & B & W) & -> & ->).
  eapply em_mod_bind with (i' := i) (b' := false) (d' := 0%nat); [auto|intros s' H1 H2 H3; cbn; auto|].
  apply em_write. repeat split; auto. eapply written_plain; [reflexivity|apply bf_new_variant; exact B|intros _; exact Logic.I|].
  intros c LE. cbn [need] in LE. destruct (variant_name k V) as [V1 V2].
  apply (c_variant u c k (ident_text k) x t V1 V2). apply W. lia.
Qed.

(** ** Compounds *)
Lemma max_list_in (f : nat) l : In f l -> (f <= max_list l)%nat.
Proof. induction l as [|a l IH]; [contradiction|]. intros [->|IN]; cbn; [lia|]. apply IH in IN. lia. Qed.
Lemma elems_buffer l t : neat EL l t -> exists xs, Forall2 buffers l xs /\
  forall c, (max_list (map need l) <= c)%nat -> neat (crepr u c) xs t.
Proof.
  induction 1 as [|v t w (x & B & U) LW|v t w l ts (x & B & U) LW _ (xs & F & NE)].
  - exists []. split; [constructor|]. intros; constructor.
  - exists [x]. split; [repeat constructor; assumption|]. intros c LE. cbn in LE. apply ne_last; [apply U; lia|assumption].
  - exists (x :: xs). split; [now constructor|]. intros c LE. cbn [map max_list] in LE. apply ne_cons; [apply U; lia|assumption|apply NE; lia].
Qed.
Lemma entries_buffer l t : neat (neat_entry EL EL) l t -> exists es,
  Forall2 (fun kv kx => buffers (fst kv) (fst kx) /\ buffers (snd kv) (snd kx)) l es /\
  forall c, (max_list (map (fun kv => Nat.max (need (fst kv)) (need (snd kv))) l) <= c)%nat -> neat (neat_entry (crepr u c) (crepr u c)) es t.
Proof.
  assert (EN : forall kv t, neat_entry EL EL kv t -> exists kx, (buffers (fst kv) (fst kx) /\ buffers (snd kv) (snd kx)) /\
    forall c, (Nat.max (need (fst kv)) (need (snd kv)) <= c)%nat -> neat_entry (crepr u c) (crepr u c) kx t).
  { intros kv t0 [k tk v tv w (xk & B1 & U1) L (xv & B2 & U2)]. exists (xk, xv). split; [now split|]. intros c LE. cbn [fst snd] in LE.
    constructor; [apply U1; lia|exact L|apply U2; lia]. }
  induction 1 as [|x t w HE LW|x t w l ts HE LW _ (es & F & NE)].
  - exists []. split; [constructor|]. intros; constructor.
  - destruct (EN _ _ HE) as (kx & B & U). exists [kx]. split; [repeat constructor; tauto|]. intros c LE. cbn [map max_list] in LE. apply ne_last; [apply U; lia|assumption].
  - destruct (EN _ _ HE) as (kx & B & U). exists (kx :: es). split; [now constructor|]. intros c LE. cbn [map max_list] in LE. apply ne_cons; [apply U; lia|assumption|apply NE; lia].
Qed.
Lemma fields_buffer l t : neat (neat_entry key EL) l t -> exists fs,
  Forall2 (fun fv kx => fst kx = XStr (fst fv) /\ buffers (snd fv) (snd kx)) l (map as_entry fs) /\
  forall c, (max_list (map (fun kv => need (snd kv)) l) <= c)%nat -> neat (neat_entry field_key_text (crepr u c)) fs t.
Proof.
  assert (EN : forall kv t, neat_entry key EL kv t -> exists kx, (fst kx = fst kv /\ buffers (snd kv) (snd kx)) /\
    forall c, (need (snd kv) <= c)%nat -> neat_entry field_key_text (crepr u c) kx t).
  { intros kv t0 [k tk v tv w (-> & V) L (xv & B2 & U2)]. exists (k, xv). split; [now split|]. intros c LE. cbn [fst snd] in LE.
    constructor; [now apply ident_text_lit|exact L|apply U2; lia]. }
  induction 1 as [|x t w HE LW|x t w l ts HE LW _ (es & F & NE)].
  - exists []. split; [constructor|]. intros; constructor.
  - destruct (EN _ _ HE) as (kx & (Q & B) & U). exists [kx]. split; [repeat constructor; [cbn; congruence|exact B]|]. intros c LE. cbn [map max_list] in LE. apply ne_last; [apply U; lia|assumption].
  - destruct (EN _ _ HE) as (kx & (Q & B) & U). exists (kx :: es). split; [constructor; [split; [cbn; congruence|exact B]|exact F]|]. intros c LE. cbn [map max_list] in LE. apply ne_cons; [apply U; lia|assumption|apply NE; lia].
Qed.
Definition writes_el (v : val) : Prop := writes o cfg EL v.
Lemma sem_writes v : sem v -> restricted e (compact_ranges cfg) false v -> writes_el v.
Proof. intros H R i. now apply sem_elem. Qed.
Lemma all_writes l : all sem l -> all (restricted e (compact_ranges cfg) false) l -> forall v, In v l -> writes_el v.
Proof. rewrite !all_in. intros H R v IN. apply sem_writes; auto. Qed.

Lemma sem_seq l : all sem l -> sem (VSeq l).
Proof.
  intros H0 i b d HB HD RS. assert (H := all_writes l H0 RS). cbn [ser]. eapply em_bind; [apply em_open; exact VC|]. cbn beta.
  intros _ t i2 b2 d2 ((w & L & ->) & -> & -> & ->).
  apply (em_neat_block cfg VC (fun c v => seq_elem cfg c (ser o cfg v)) fst EL i l (true, 0%nat) wide_seq (negb (compact_arrays cfg))
    (fun _ => write [c_rb] ;~ drop_compound)); [intros a IN; apply seq_steps; [exact VC|now apply H]|reflexivity|].
  intros w' ti c' L' IT. apply em_write_bind. eapply em_conseq; [apply em_drop|]. cbn beta. intros [] t i2 b2 d2 (-> & -> & -> & ->).
  destruct (elems_buffer l ti IT) as (xs & F & NE). repeat split; auto.
  eapply written_plain; [reflexivity|apply bf_seq; exact F|intros _; exact Logic.I|]. intros c LE. cbn [need] in LE. destruct c as [|[|c]]; [lia|lia|].
  match goal with |- crepr _ _ _ ?t => replace t with (c_lb :: (w ++ w') ++ ti ++ [c_rb]) by (unfold str, char; cbn [app]; rewrite <- !app_assoc; reflexivity) end.
  apply (c_seq u c xs ti (w ++ w')); [now apply layout_app|apply NE; lia].
Qed.
Lemma em_map_neat (R : val -> str -> Prop) l i b d {Q : unit -> str -> nat -> bool -> nat -> Prop} : (forall kv, In kv l -> writes o cfg R (fst kv) /\ writes o cfg R (snd kv)) ->
  (forall w ti, layout w -> neat (neat_entry R R) l ti -> Q tt (c_lc :: w ++ ti ++ [c_rc]) i false 0%nat) ->
  em (ser o cfg (VMap l)) i b d Q.
Proof.
  intros H HQ. cbn [ser]. eapply em_bind; [apply em_open; exact VC|]. cbn beta.
  intros _ t i2 b2 d2 ((w & L & ->) & -> & -> & ->).
  eapply em_ext with (m' := f <~ loop (fun c kv => map_entry cfg c (ser o cfg (fst kv)) (ser o cfg (snd kv))) l true ;; map_close cfg f).
  { intros s. apply sbind_ext; [|auto]. clear. generalize true. induction l as [|[k v] l IH]; intros c s; [reflexivity|].
    cbn [loop fst snd]. apply sbind_ext; auto. }
  apply (em_neat_block cfg VC (fun c kv => map_entry cfg c (ser o cfg (fst kv)) (ser o cfg (snd kv))) (fun b => b) (neat_entry R R) i l true wide_map (negb (compact_maps cfg))
    (fun _ => write [c_rc] ;~ drop_compound)); [|reflexivity|].
  - intros kv IN first. destruct (H kv IN) as [HK HV]. unfold map_entry.
    eapply puts_bind; [apply puts_sep; exact VC|]. intros t1 (w1 & L1 & ->).
    eapply puts_bind; [apply puts_indent'; exact VC|]. intros w2 L2.
    eapply em_bind; [apply em_guard, HK|]. cbn beta. intros [] tk i2 b2 d2 (HE & -> & -> & ->).
    apply em_write_bind. eapply puts_bind; [apply puts_pretty_sep; exact VC|]. intros w3 L3.
    eapply em_bind; [apply em_guard, HV|]. cbn beta. intros [] tv i2 b2 d2 (HE' & -> & -> & ->).
    apply em_ret. split; [auto|]. exists (w1 ++ w2), (tk ++ c_colon :: w3 ++ tv). split; [now apply layout_app|].
    split; [destruct kv; constructor; auto|]. rewrite app_nil_r, <- !app_assoc. reflexivity.
  - intros w' ti c' L' IT. apply em_write_bind. eapply em_conseq; [apply em_drop|]. cbn beta. intros [] t i2 b2 d2 (-> & -> & -> & ->).
    match goal with |- Q tt ?t _ _ _ => replace t with (c_lc :: (w ++ w') ++ ti ++ [c_rc]) by (unfold str, char; cbn [app]; rewrite <- !app_assoc; reflexivity) end.
    apply HQ; [now apply layout_app|exact IT].
Qed.
Lemma sem_map l : all (fun kv => sem (fst kv) /\ sem (snd kv)) l -> sem (VMap l).
Proof.
  intros H0 i b d HB HD RS. cbn [restricted] in RS. apply (em_map_neat EL).
  - rewrite all_in in H0, RS. intros kv IN. destruct (H0 kv IN) as [HK HV], (RS kv IN) as [RK RV]. split; intros j; now apply sem_elem.
  - intros w ti L IT. destruct (entries_buffer l ti IT) as (xs & F & NE). repeat split; auto.
    eapply written_plain; [reflexivity|apply bf_map; exact F|intros _; exact Logic.I|]. intros c LE. cbn [need] in LE. destruct c as [|[|c]]; [lia|lia|].
    apply (c_map u c xs ti w); [exact L|apply NE; lia].
Qed.
(** the fields of a tuple, after whatever comes before its opening parenthesis *)
Lemma em_tuple_neat l i ntv {Q : unit -> str -> nat -> bool -> nat -> Prop} : (forall v, In v l -> writes_el v) ->
  (forall w ti, layout w -> neat EL l ti -> Q tt ((w ++ ti) ++ (if ntv : bool then [] else [c_rp])) i false 0%nat) ->
  em (f <~ loop (fun c v => tuple_elem cfg c (ser o cfg v)) l true ;; tuple_close cfg ntv f) (wider cfg (separate_tuple_members cfg) i) false 0 Q.
Proof.
  intros H HQ. apply (em_neat_block cfg VC (fun c v => tuple_elem cfg c (ser o cfg v)) (fun b => b) EL i l true wide_tuple (separate_tuple_members cfg)
    (fun _ => (if ntv then sret tt else write [c_rp]) ;~ drop_compound)); [intros a IN; apply tuple_steps; [exact VC|now apply H]|reflexivity|].
  intros w ti c' L IT. destruct ntv.
  - apply em_ret_bind. eapply em_conseq; [apply em_drop|]. cbn beta. intros [] t i2 b2 d2 (-> & -> & -> & ->). auto.
  - apply em_write_bind. eapply em_conseq; [apply em_drop|]. cbn beta. intros [] t i2 b2 d2 (-> & -> & -> & ->). apply HQ; auto.
Qed.
Lemma Forall2_len {A B} (R : A -> B -> Prop) l l' : Forall2 R l l' -> length l = length l'.
Proof. induction 1; cbn; congruence. Qed.
Lemma length_ne {A B} (l : list A) (l' : list B) : length l = length l' -> l <> [] -> l' <> [].
Proof. destruct l, l'; cbn; congruence. Qed.
(** what a tuple is written as *)
Lemma tuple_written i (b : bool) d v l w w' ti : l <> [] -> (b = true -> length l <> 1%nat) -> layout w -> layout w' -> neat EL l ti ->
  none_depth v = None -> is_unit v = false -> (forall xs, Forall2 buffers l xs -> buffers v (XSeq xs)) -> need v = (2 + max_list (map need l))%nat ->
  wpost i b d v tt (((if b then [] else [c_lp]) ++ w) ++ (w' ++ ti) ++ if b then [] else [c_rp]) i false 0%nat.
Proof.
  intros NE N1 L L' IT ND NU BF ND'. destruct (elems_buffer l ti IT) as (xs & F & NX). assert (LX := Forall2_len _ _ _ F). repeat split; auto. destruct b.
  - eapply written_args; [exact ND|apply BF; exact F|intros _; exact Logic.I|]. intros c LE. rewrite ND' in LE. destruct c as [|[|c]]; [lia|lia|].
    match goal with |- carg _ _ _ ?t => replace t with ((w ++ w') ++ ti) by (unfold str, char; cbn [app]; rewrite app_nil_r, <- !app_assoc; reflexivity) end.
    apply (ca_tuple (crepr u) c xs ti (w ++ w')); [|now apply layout_app|apply NX; lia]. specialize (N1 eq_refl). destruct l as [|? [|? ?]]; cbn in *; [congruence|congruence|lia].
  - eapply written_plain; [exact ND|apply BF; exact F|intros _; exact Logic.I|]. intros c LE. rewrite ND' in LE. destruct c as [|[|c]]; [lia|lia|].
    match goal with |- crepr _ _ _ ?t => replace t with (c_lp :: (w ++ w') ++ ti ++ [c_rp]) by (unfold str, char; cbn [app]; rewrite <- !app_assoc; reflexivity) end.
    apply (c_tuple u c xs ti (w ++ w')); [exact (length_ne l xs LX NE)|now apply layout_app|apply NX; lia].
Qed.
Lemma sem_tuple l : all sem l -> sem (VTuple l).
Proof.
  intros H0 i b d HB HD (NE & N1 & RS). assert (H := all_writes l H0 RS). cbn [ser]. eapply em_bind; [apply em_tuple_open; exact VC|]. cbn beta.
  intros ntv t i2 b2 d2 ((-> & w & L & ->) & -> & -> & ->).
  apply (em_tuple_neat l i b H). intros w' ti L' IT. apply tuple_written with l; auto. intros xs. apply bf_tuple.
Qed.
Lemma sem_tuple_struct n l : all sem l -> sem (VTupleStruct n l).
Proof.
  intros H0 i b d HB HD (NE & N1 & RS). assert (H := all_writes l H0 RS). cbn [ser].
  eapply em_bind with (Q1 := fun ntv t i2 b2 d2 => (ntv = b /\ exists w, layout w /\ t = (if b then [] else [c_lp]) ++ w) /\
     i2 = wider cfg (separate_tuple_members cfg) i /\ b2 = false /\ d2 = 0%nat).
  { unfold tuple_struct_open. apply em_get. intros s _ NT _. rewrite SN. cbn [andb]. eapply puts_bind; [apply puts_validate|]. intros t (-> & _).
    exact (em_tuple_open cfg VC (length l) i b d). }
  cbn beta. intros ntv t i2 b2 d2 ((-> & w & L & ->) & -> & -> & ->).
  apply (em_tuple_neat l i b H). intros w' ti L' IT. apply tuple_written with l; auto. intros xs. apply bf_tuple_struct.
Qed.
Lemma sem_tup_variant n k l : all sem l -> sem (VTupVariant n k l).
Proof.
  intros H0 i b d HB HD (N2 & RS). assert (H := all_writes l H0 RS). cbn [ser].
  eapply em_bind with (Q1 := fun ntv t i2 b2 d2 => (ntv = false /\ exists w, valid_identifier k = true /\ layout w /\ t = ident_text k ++ [c_lp] ++ w) /\
     i2 = wider cfg (separate_tuple_members cfg) i /\ b2 = false /\ d2 = 0%nat).
  { unfold tuple_variant_open. eapply em_mod_bind with (i' := i) (b' := false) (d' := 0%nat); [auto|intros s' H1 H2 H3; cbn; auto|].
    eapply puts_bind; [apply puts_validate|]. intros t (-> & _). eapply puts_bind; [apply puts_ident|]. intros tk (-> & V).
    apply em_write_bind. eapply lays_bind; [apply lays_open; exact VC|]. intros w L. apply em_ret. rewrite app_nil_r. split; [|auto]. eauto. }
  cbn beta. intros ntv t i2 b2 d2 ((-> & w & V & L & ->) & -> & -> & ->).
  apply (em_tuple_neat l i false H). intros w' ti L' IT. destruct (elems_buffer l ti IT) as (xs & F & NX). assert (LX := Forall2_len _ _ _ F). repeat split; auto.
  eapply written_plain; [reflexivity|apply bf_tup_variant; exact F|intros _; exact Logic.I|]. intros c LE. cbn [need] in LE. destruct c as [|[|c]]; [lia|lia|].
  destruct (variant_name k V) as [V1 V2].
  match goal with |- crepr _ _ _ ?t => replace t with (ident_text k ++ c_lp :: ((w ++ w') ++ ti) ++ [c_rp]) by (unfold str, char; cbn [app]; rewrite <- ?app_assoc; cbn [app]; rewrite <- ?app_assoc; cbn [app]; reflexivity) end.
  apply (c_variant u (S (S c)) k (ident_text k) _ _ V1 V2). apply (ca_tuple (crepr u) c xs ti (w ++ w')); [rewrite <- LX; exact N2|now apply layout_app|apply NX; lia].
Qed.
(** structs *)
Lemma field_steps (R : val -> str -> Prop) i kv : writes o cfg R (snd kv) ->
  SerWp.steps (fun c kv => struct_field cfg c (fst kv) (ser o cfg (snd kv))) (fun b => b) (neat_entry key R) i kv.
Proof.
  intros HV first. unfold struct_field. apply em_get. intros s _ _ _. destruct (match cfg with Some _ => _ | None => _ end) as [inner restore].
  eapply em_mod_bind with (i' := i) (b' := false) (d' := 0%nat); [auto|intros s' H1 H2 H3; cbn; auto|].
  eapply puts_bind; [apply puts_sep; exact VC|]. intros t1 (w1 & L1 & ->).
  eapply puts_bind with (P := layout).
  { apply puts_lays. intros i0. destruct (compact_structs cfg); [apply lays_ret|].
    assert (LI := lays_indent cfg VC i0). assert (LD := lays_doc cfg VC i0). destruct cfg as [p|]; [|apply lays_ret].
    eapply lays_seq; [exact LI|exact LD]. }
  intros w2 L2. eapply puts_bind; [apply puts_ident|]. intros tk HK.
  apply em_write_bind. eapply puts_bind; [apply puts_pretty_sep; exact VC|]. intros w3 L3.
  eapply em_bind; [apply em_guard, HV|]. cbn beta. intros [] tv i2 b2 d2 (HE' & -> & -> & ->).
  eapply em_mod_bind with (i' := i) (b' := false) (d' := 0%nat); [auto|intros s' H1 H2 H3; cbn; auto|].
  apply em_ret. split; [auto|]. exists (w1 ++ w2), (tk ++ c_colon :: w3 ++ tv). split; [now apply layout_app|].
  split; [destruct kv; constructor; auto|]. rewrite app_nil_r, <- !app_assoc. reflexivity.
Qed.
Lemma em_struct_neat (R : val -> str -> Prop) l i ntv {Q : unit -> str -> nat -> bool -> nat -> Prop} : (forall kv, In kv l -> writes o cfg R (snd kv)) ->
  (forall w ti, layout w -> neat (neat_entry key R) l ti -> Q tt ((w ++ ti) ++ (if ntv : bool then [] else [c_rp])) i false 0%nat) ->
  em (f <~ (fix go (fs : list (str * val)) (c : bool) : SM bool :=
                  match fs with
                  | [] => sret c
                  | (k, v) :: fs' => c' <~ struct_field cfg c k (ser o cfg v) ;; go fs' c'
                  end) l true ;; struct_close cfg ntv f) (wider cfg (negb (compact_structs cfg)) i) false 0 Q.
Proof.
  intros H HQ.
  eapply em_ext with (m' := f <~ loop (fun c kv => struct_field cfg c (fst kv) (ser o cfg (snd kv))) l true ;; struct_close cfg ntv f).
  { intros s. apply sbind_ext; [|auto]. clear. generalize true. induction l as [|[k v] l IH]; intros c s; [reflexivity|].
    cbn [loop fst snd]. apply sbind_ext; auto. }
  apply (em_neat_block cfg VC (fun c kv => struct_field cfg c (fst kv) (ser o cfg (snd kv))) (fun b => b) (neat_entry key R) i l true wide_struct (negb (compact_structs cfg))
    (fun _ => (if ntv then sret tt else write [c_rp]) ;~ drop_compound)); [intros a IN; apply field_steps; now apply H|reflexivity|].
  intros w ti c' L IT. destruct ntv.
  - apply em_ret_bind. eapply em_conseq; [apply em_drop|]. cbn beta. intros [] t i2 b2 d2 (-> & -> & -> & ->). auto.
  - apply em_write_bind. eapply em_conseq; [apply em_drop|]. cbn beta. intros [] t i2 b2 d2 (-> & -> & -> & ->). apply HQ; auto.
Qed.
Lemma fields_write (l : list (str * val)) : all (fun kv => sem (snd kv)) l -> all (fun kv => restricted e (compact_ranges cfg) false (snd kv)) l -> forall kv, In kv l -> writes_el (snd kv).
Proof. rewrite !all_in. intros H R kv IN. apply sem_writes; [exact (H kv IN)|exact (R kv IN)]. Qed.
Lemma struct_written i (b0 b : bool) d v l w w' ti : (b = true -> b0 = true) -> l <> [] -> layout w -> layout w' -> neat (neat_entry key EL) l ti ->
  none_depth v = None -> is_unit v = false ->
  (forall es, Forall2 (fun fv kx => fst kx = XStr (fst fv) /\ buffers (snd fv) (snd kx)) l es -> buffers v (XMap es)) ->
  need v = (2 + max_list (map (fun kv => need (snd kv)) l))%nat ->
  wpost i b0 d v tt (((if b then [] else [c_lp]) ++ w) ++ (w' ++ ti) ++ if b then [] else [c_rp]) i false 0%nat.
Proof.
  intros BB NE L L' IT ND NU BF ND'. destruct (fields_buffer l ti IT) as (xs & F & NX). assert (LX := Forall2_len _ _ _ F). rewrite map_length in LX. repeat split; auto. destruct b.
  - rewrite (BB eq_refl). eapply written_args; [exact ND|apply BF; exact F|intros _; exact Logic.I|]. intros c LE. rewrite ND' in LE. destruct c as [|[|c]]; [lia|lia|].
    match goal with |- carg _ _ _ ?t => replace t with ((w ++ w') ++ ti) by (unfold str, char; cbn [app]; rewrite app_nil_r, <- !app_assoc; reflexivity) end.
    apply (ca_struct (crepr u) c xs ti (w ++ w')); [exact (length_ne l xs LX NE)|now apply layout_app|apply NX; lia].
  - eapply written_plain; [exact ND|apply BF; exact F|intros _; exact Logic.I|]. intros c LE. rewrite ND' in LE. destruct c as [|[|c]]; [lia|lia|].
    match goal with |- crepr _ _ _ ?t => replace t with (c_lp :: (w ++ w') ++ ti ++ [c_rp]) by (unfold str, char; cbn [app]; rewrite <- !app_assoc; reflexivity) end.
    apply (c_struct u c xs ti (w ++ w')); [exact (length_ne l xs LX NE)|now apply layout_app|apply NX; lia].
Qed.
Lemma em_struct_open n len i (b : bool) d : em (struct_open o cfg n len) i b d (fun ntv t i2 b2 d2 => (ntv = b /\ exists w, layout w /\ t = (if b then [] else [c_lp]) ++ w) /\
     i2 = wider cfg (negb (compact_structs cfg)) i /\ b2 = false /\ d2 = 0%nat).
Proof.
  unfold struct_open. apply em_get. intros s _ NT _. rewrite NT, SN.
    eapply em_mod_bind with (i' := i) (b' := false) (d' := 0%nat); [auto|intros s' H1 H2 H3; cbn; auto|].
    destruct b.
    - eapply puts_bind; [apply puts_validate|]. intros t (-> & _).
      eapply lays_bind; [apply lays_open; exact VC|]. intros w L. apply em_ret. rewrite app_nil_r. split; [|auto]. eauto.
    - eapply em_bind with (Q1 := fun _ t i2 b2 d2 => t = [c_lp] /\ i2 = i /\ b2 = false /\ d2 = 0%nat).
      { eapply puts_bind; [apply puts_validate|]. intros tn (-> & _). apply em_write. auto. }
      cbn beta. intros _ t i2 b2 d2 (-> & -> & -> & ->).
      eapply lays_bind; [apply lays_open; exact VC|]. intros w L. apply em_ret. rewrite app_nil_r. split; [|auto]. eauto.
Qed.
(** a struct that is no range of numbers: when it has the name of a range, the
    parenthesis is written even where it would be shared *)
Lemma em_named_neat (R : val -> str -> Prop) n l i b d {Q : unit -> str -> nat -> bool -> nat -> Prop} :
  (compact_ranges cfg = true -> numeric_range n l = false) -> (forall kv, In kv l -> writes o cfg R (snd kv)) ->
  (forall (b' : bool) w w' ti, (b' = true -> b = true) -> layout w -> layout w' -> neat (neat_entry key R) l ti ->
    Q tt (((if b' then [] else [c_lp]) ++ w) ++ (w' ++ ti) ++ if b' then [] else [c_rp]) i false 0%nat) ->
  em (ser o cfg (VStruct n l)) i b d Q.
Proof.
  intros NN H HQ. cbn [ser]. destruct (range_kind_of cfg n (length l)) as [rk|] eqn:RK.
  - assert (CR : compact_ranges cfg = true) by (destruct (range_kind_named cfg n (length l)) as [K|[K _]]; [congruence|exact K]).
    eapply em_ext with (m' := smod (fun s => sset_isd 0 (sset_nt false s)) ;~ range_ser o cfg rk l); [reflexivity|].
    eapply em_mod_bind with (i' := i) (b' := false) (d' := 0%nat); [auto|intros s' H1 H2 H3; cbn; auto|].
    eapply em_ext; [intros s; exact (range_falls o cfg rk n l s RK (NN CR))|]. unfold fall_back. apply em_write_bind.
    eapply lays_bind; [apply lays_open; exact VC|]. intros w L. apply (em_struct_neat R l i false H). intros w' ti L' IT.
    exact (HQ false w w' ti ltac:(discriminate) L L' IT).
  - eapply em_bind; [apply em_struct_open|]. cbn beta. intros ntv t i2 b2 d2 ((-> & w & L & ->) & -> & -> & ->).
    apply (em_struct_neat R l i b H). intros w' ti L' IT. now apply HQ.
Qed.
(** a range of numbers *)
Lemma num_puts v n : as_number v = Some n -> plain fok v -> (forall k z, v = VInt k z -> in_range k z = true) -> restricted e (compact_ranges cfg) false v ->
  puts (ser_num cfg n) (fun t => exists n, buffers v (XNum n) /\ num_text n t /\ wide_num (XNum n) = false /\ (leads v -> num_lead t)).
Proof.
  intros AN P IR RS i b d. destruct v; try discriminate AN; injection AN as <-; cbn [ser_num].
  - cbn [restricted] in RS. destruct (int_supported k) eqn:SP; [|unfold ser_int; rewrite SP; apply em_fail].
    destruct (int_written k z SP (IR k z eq_refl) RS) as (k' & NT & K).
    eapply em_emits; [now apply emits_int|]. split; [|auto]. exists (NInt k' z). split; [|split; [exact NT|split; [exact K|intros _; apply show_Z_lead]]].
    apply bf_int; [exact RS|]. cbn. now rewrite K, (IR k z eq_refl).
  - destruct (HF _ _ P) as (n & NT & NI). eapply em_emits; [apply emits_float|]. split; [|auto]. exists n.
    split; [now apply bf_float|]. split; [exact NT|]. split; [|intros L; apply float_lead; [now apply HC|exact L]].
    destruct n as [k' z|k' z]; [|reflexivity]. cbn in NI. cbn. destruct (is_128 k'); [discriminate|reflexivity].
Qed.
Lemma range_written i b d n l es t : Forall2 (fun fv kx => fst kx = XStr (fst fv) /\ buffers (snd fv) (snd kx)) l es ->
  range_lit (XMap es) t -> wide (XMap es) = false -> wpost i b d (VStruct n l) tt t i false 0%nat.
Proof.
  intros F RL W. repeat split; auto. eapply written_plain; [reflexivity|apply bf_struct; exact F|intros _; exact Logic.I|].
  intros c _. now apply c_range.
Qed.
Lemma em_num_range rk n l i b d : range_kind_of cfg n (length l) = Some rk -> numeric_range n l = true ->
  (forall kv, In kv l -> plain fok (snd kv) /\ (forall k z, snd kv = VInt k z -> in_range k z = true) /\ restricted e (compact_ranges cfg) false (snd kv)) -> ends_fine n l ->
  em (smod (fun s => sset_isd 0 (sset_nt false s)) ;~ range_ser o cfg rk l) i b d (wpost i b d (VStruct n l)).
Proof.
  intros RK NU PL EF. specialize (EF NU). destruct (range_shape cfg _ _ _ RK) as [-> SH].
  eapply em_mod_bind with (i' := i) (b' := false) (d' := 0%nat); [auto|intros s' H1 H2 H3; cbn; auto|].
  assert (NP : forall k v n, In (k, v) l -> as_number v = Some n -> puts (ser_num cfg n) (fun t => exists n, buffers v (XNum n) /\ num_text n t /\ wide_num (XNum n) = false /\ (leads v -> num_lead t))).
  { intros k v m IN A. destruct (PL _ IN) as (P1 & P2 & P3). now apply num_puts. }
  destruct rk; [destruct SH as (k1 & v1 & k2 & v2 & -> & EQ)|destruct SH as (k1 & v1 & k2 & v2 & -> & EQ)|destruct SH as (k1 & v1 & -> & EQ)..]; rewrite EQ in NU; clear EQ PL;
    rewrite ?andb_true_iff in NU.
  1-2: destruct NU as [[K1 N1] [K2 N2]]; apply str_eqb_eq in K1 as ->; apply str_eqb_eq in K2 as ->;
    destruct (is_number_as _ N1) as [n1 A1]; destruct (is_number_as _ N2) as [n2 A2];
    assert (P1 := NP s_start v1 n1 (or_introl eq_refl) A1); assert (P2 := NP s_end v2 n2 (or_intror (or_introl eq_refl)) A2).
  3-5: destruct NU as [K1 N1]; apply str_eqb_eq in K1 as ->; destruct (is_number_as _ N1) as [n1 A1]; assert (P1 := NP _ v1 n1 (or_introl eq_refl) A1).
  - apply em_ext with (m' := ser_num cfg n1 ;~ write s_dotdot ;~ ser_num cfg n2 ;~ drop_compound).
    { intros s. unfold range_ser, range_field. rewrite A1, A2. transitivity (range_close cfg RKRange (RBuf (Some (s_start, n1)) (Some (s_end, n2))) s); [reflexivity|].
      cbn [range_close write_buffered]. rewrite sbind_assoc. apply sbind_ext; [reflexivity|]. intros _ s1. rewrite sbind_assoc. reflexivity. }
    eapply puts_bind; [exact P1|]. intros ta (m1 & B1 & T1 & W1 & _). apply em_write_bind. eapply puts_bind; [exact P2|]. intros tb (m2 & B2 & T2 & W2 & L2).
    eapply em_conseq; [apply em_drop|]. cbn beta. intros [] t i2 b2 d2 (-> & -> & -> & ->). rewrite app_nil_r.
    eapply range_written; [|apply (rl_range m1 m2 ta tb T1 T2); apply L2, EF; now left|cbn [wide existsb snd]; now rewrite W1, W2]. repeat constructor; assumption.
  - apply em_ext with (m' := ser_num cfg n1 ;~ write s_dotdoteq ;~ ser_num cfg n2 ;~ drop_compound).
    { intros s. unfold range_ser, range_field. rewrite A1, A2. transitivity (range_close cfg RKInclusive (RBuf (Some (s_start, n1)) (Some (s_end, n2))) s); [reflexivity|].
      cbn [range_close write_buffered]. rewrite sbind_assoc. apply sbind_ext; [reflexivity|]. intros _ s1. rewrite sbind_assoc. reflexivity. }
    eapply puts_bind; [exact P1|]. intros ta (m1 & B1 & T1 & W1 & _). apply em_write_bind. eapply puts_bind; [exact P2|]. intros tb (m2 & B2 & T2 & W2 & L2).
    eapply em_conseq; [apply em_drop|]. cbn beta. intros [] t i2 b2 d2 (-> & -> & -> & ->). rewrite app_nil_r.
    eapply range_written; [|apply (rl_inclusive m1 m2 ta tb T1 T2)|cbn [wide existsb snd]; now rewrite W1, W2]. repeat constructor; assumption.
  - apply em_ext with (m' := ser_num cfg n1 ;~ write s_dotdot ;~ drop_compound).
    { intros s. unfold range_ser, range_field. rewrite A1. transitivity (range_close cfg RKFrom (RBuf (Some (s_start, n1)) None) s); [reflexivity|].
      cbn [range_close write_buffered]. rewrite sbind_assoc. reflexivity. }
    eapply puts_bind; [exact P1|]. intros ta (m1 & B1 & T1 & W1 & _). apply em_write_bind.
    eapply em_conseq; [apply em_drop|]. cbn beta. intros [] t i2 b2 d2 (-> & -> & -> & ->). rewrite app_nil_r.
    eapply range_written; [|apply (rl_from m1 ta T1)|cbn [wide existsb snd]; now rewrite W1]. repeat constructor; assumption.
  - apply em_ext with (m' := write s_dotdot ;~ ser_num cfg n1 ;~ drop_compound).
    { intros s. unfold range_ser, range_field. rewrite A1. transitivity (range_close cfg RKTo (RBuf (Some (s_end, n1)) None) s); [reflexivity|].
      cbn [range_close write_buffered]. rewrite sbind_assoc. reflexivity. }
    apply em_write_bind. eapply puts_bind; [exact P1|]. intros ta (m1 & B1 & T1 & W1 & L1).
    eapply em_conseq; [apply em_drop|]. cbn beta. intros [] t i2 b2 d2 (-> & -> & -> & ->). rewrite app_nil_r.
    eapply range_written; [|apply (rl_to m1 ta T1); apply L1, EF; now right|cbn [wide existsb snd]; now rewrite W1]. repeat constructor; assumption.
  - apply em_ext with (m' := write s_dotdoteq ;~ ser_num cfg n1 ;~ drop_compound).
    { intros s. unfold range_ser, range_field. rewrite A1. transitivity (range_close cfg RKToInclusive (RBuf (Some (s_end, n1)) None) s); [reflexivity|].
      cbn [range_close write_buffered]. rewrite sbind_assoc. reflexivity. }
    apply em_write_bind. eapply puts_bind; [exact P1|]. intros ta (m1 & B1 & T1 & W1 & _).
    eapply em_conseq; [apply em_drop|]. cbn beta. intros [] t i2 b2 d2 (-> & -> & -> & ->). rewrite app_nil_r.
    eapply range_written; [|apply (rl_to_inclusive m1 ta T1)|cbn [wide existsb snd]; now rewrite W1]. repeat constructor; assumption.
Qed.
Lemma sem_struct n l : all (fun kv => sem (snd kv)) l -> (forall kv, In kv l -> plain fok (snd kv) /\ (forall k z, snd kv = VInt k z -> in_range k z = true)) -> sem (VStruct n l).
Proof.
  intros H0 PL i b d HB HD (NE & EF & RS). assert (H := fields_write l H0 RS).
  destruct (compact_ranges cfg) eqn:CR; [destruct (numeric_range n l) eqn:NU|].
  - destruct (range_kind_of cfg n (length l)) as [rk|] eqn:RK; [|now destruct (numeric_kind cfg n l CR NU)].
    cbn [ser]. rewrite RK. eapply em_ext with (m' := smod (fun s => sset_isd 0 (sset_nt false s)) ;~ range_ser o cfg rk l); [reflexivity|].
    apply (em_num_range rk n l i b d RK NU); [|auto]. rewrite all_in in RS. intros kv IN. destruct (PL kv IN). rewrite CR. auto.
  - apply (em_named_neat EL n l i b d (fun _ => NU) H). intros b' w w' ti BB L L' IT. apply struct_written with l; auto. intros es. apply bf_struct.
  - apply (em_named_neat EL n l i b d); [congruence|exact H|]. intros b' w w' ti BB L L' IT. apply struct_written with l; auto. intros es. apply bf_struct.
Qed.
Lemma sem_struct_variant n k l : all (fun kv => sem (snd kv)) l -> sem (VStructVariant n k l).
Proof.
  intros H0 i b d HB HD (NE & RS). assert (H := fields_write l H0 RS). cbn [ser].
  eapply em_bind with (Q1 := fun ntv t i2 b2 d2 => (ntv = false /\ exists w, valid_identifier k = true /\ layout w /\ t = ident_text k ++ [c_lp] ++ w) /\
     i2 = wider cfg (negb (compact_structs cfg)) i /\ b2 = false /\ d2 = 0%nat).
  { unfold struct_variant_open. eapply em_mod_bind with (i' := i) (b' := false) (d' := 0%nat); [auto|intros s' H1 H2 H3; cbn; auto|].
    eapply puts_bind; [apply puts_validate|]. intros t (-> & _). eapply puts_bind; [apply puts_ident|]. intros tk (-> & V).
    apply em_write_bind. eapply lays_bind; [apply lays_open; exact VC|]. intros w L. apply em_ret. rewrite app_nil_r. split; [|auto]. eauto. }
  cbn beta. intros ntv t i2 b2 d2 ((-> & w & V & L & ->) & -> & -> & ->).
  apply (em_struct_neat EL l i false H). intros w' ti L' IT. destruct (fields_buffer l ti IT) as (xs & F & NX). assert (LX := Forall2_len _ _ _ F). rewrite map_length in LX. repeat split; auto.
  eapply written_plain; [reflexivity|apply bf_struct_variant; exact F|intros _; exact Logic.I|]. intros c LE. cbn [need] in LE. destruct c as [|[|c]]; [lia|lia|].
  destruct (variant_name k V) as [V1 V2].
  match goal with |- crepr _ _ _ ?t => replace t with (ident_text k ++ c_lp :: ((w ++ w') ++ ti) ++ [c_rp]) by (unfold str, char; cbn [app]; rewrite <- ?app_assoc; cbn [app]; rewrite <- ?app_assoc; cbn [app]; reflexivity) end.
  apply (c_variant u (S (S c)) k (ident_text k) _ _ V1 V2). apply (ca_struct (crepr u) c xs ti (w ++ w')); [exact (length_ne l xs LX NE)|now apply layout_app|apply NX; lia].
Qed.

(** ** Every value *)
Lemma restricted_newtype b n v : ~ restricted e (compact_ranges cfg) b (VNewtype n v).
Proof. exact (fun H => H). Qed.
Lemma Forall2_in_r {A B} (R : A -> B -> Prop) l l' b : Forall2 R l l' -> In b l' -> exists a, In a l /\ R a b.
Proof. induction 1 as [|a b' l l' H F IH]; [contradiction|]. intros [->|IN]; [exists a; split; [now left|exact H]|]. destruct (IH IN) as (a' & ? & ?). exists a'. split; [now right|assumption]. Qed.
Theorem ser_buffered tenv v : forall T, typed tenv fok T v -> sem v.
Proof.
  induction v as [v F|v IH|n v IH|l IH|l IH|n l IH|l IH|n l IH|n k v IH|n k l IH|n k l IH] using val_ind'.
  - intros T HT. apply sem_flat; [exact F|eapply typed_plain; exact HT|]. intros k z ->. revert HT. clear. remember (VInt k z) as v eqn:Q. induction 1; try discriminate Q; auto. now injection Q as -> ->.
  - intros T HT. apply sem_some. remember (VSome v) as v' eqn:Q. induction HT; try discriminate Q; auto. injection Q as ->. eauto.
  - intros T HT i b d _ _ RS. now apply restricted_newtype in RS.
  - intros T HT. apply sem_seq. rewrite all_in in *. remember (VSeq l) as v' eqn:Q. induction HT; try discriminate Q; auto. injection Q as ->.
    intros a IN. rewrite Forall_forall in H. eauto.
  - intros T HT. apply sem_tuple. rewrite all_in in *. remember (VTuple l) as v' eqn:Q. induction HT; try discriminate Q; auto. injection Q as ->.
    intros a IN. destruct (Forall2_in_r _ _ _ _ H IN) as (T & _ & HT). eauto.
  - intros T HT. apply sem_tuple_struct. rewrite all_in in *. remember (VTupleStruct n l) as v' eqn:Q. induction HT; try discriminate Q; auto. injection Q as -> ->.
    intros a IN. destruct (Forall2_in_r _ _ _ _ H IN) as (T & _ & HT). eauto.
  - intros T HT. apply sem_map. rewrite all_in in *. remember (VMap l) as v' eqn:Q. induction HT; try discriminate Q; auto. injection Q as ->.
    intros a IN. rewrite Forall_forall in H. destruct (IH a IN), (H a IN). eauto.
  - intros T HT. rewrite all_in in IH. assert (FT : forall a, In a l -> exists T, typed tenv fok T (snd a)).
    { clear IH. remember (VStruct n l) as v' eqn:Q. induction HT; try discriminate Q; auto. injection Q as -> ->.
      intros a IN. rewrite Forall_forall in H1. destruct (H1 a IN) as (T & _ & HT). eauto. }
    apply sem_struct; [rewrite all_in|]; intros a IN; destruct (FT a IN) as (T' & HT'); [exact (IH a IN T' HT')|].
    split; [eapply typed_plain; exact HT'|]. intros k z Q. rewrite Q in HT'. clear - HT'. remember (VInt k z) as v eqn:Q. induction HT'; try discriminate Q; auto. now injection Q as -> ->.
  - intros T HT. apply sem_new_variant. remember (VNewVariant n k v) as v' eqn:Q. induction HT; try discriminate Q; auto. injection Q as -> -> ->. eauto.
  - intros T HT. apply sem_tup_variant. rewrite all_in in *. remember (VTupVariant n k l) as v' eqn:Q. induction HT; try discriminate Q; auto. injection Q as -> -> ->.
    intros a IN. destruct (Forall2_in_r _ _ _ _ H1 IN) as (T & _ & HT). eauto.
  - intros T HT. apply sem_struct_variant. rewrite all_in in *. remember (VStructVariant n k l) as v' eqn:Q. induction HT; try discriminate Q; auto. injection Q as -> -> ->.
    intros a IN. rewrite Forall_forall in H3. destruct (H3 a IN) as (T & _ & HT). exact (IH a IN T HT).
Qed.
Theorem to_string_buffered tenv T v text : typed tenv fok T v -> restricted e (compact_ranges cfg) false v -> to_string o cfg v = inl text ->
  exists a y x t, text = a ++ t /\ attrs_text a y /\ exts_or y (o_exts o) = e /\ buffers v x /\ crepr u (need v) x t.
Proof.
  intros HT RS TS. destruct (emits_new o cfg VC) as (a & y & EA & HA & EX).
  unfold to_string, to_writer in TS. unfold sbind in TS. rewrite EA in TS by reflexivity.
  assert (S := sem_elem v 0 (ser_buffered tenv v T HT) RS). specialize (S (sset_out (w_out (ser_init o cfg None) ++ a) (ser_init o cfg None)) eq_refl eq_refl eq_refl eq_refl).
  destruct (ser o cfg v _) as [un s'| |]; [|discriminate|contradiction]. destruct S as (t & OUT & _ & (x & B & C) & _).
  injection TS as <-. exists a, y, x, t. rewrite OUT. repeat split; auto.
Qed.
End Write.
