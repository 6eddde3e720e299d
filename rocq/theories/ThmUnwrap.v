(** C14, C15: Values where unwrap_variant_newtypes is on, and the theorems. *)
From Coq Require Import String Ascii NArith ZArith Lia Bool List.
From Coq Require Import ZifyBool ZifyNat ZifyN.
From Verif Require Import Base Facts Value Data Parse De Span Ser Wp EnvOk Layout Lit Attr ShowFacts LexSafe LexWs LexRead DocSafe DocRead SerLex LexDoc Typing ValueFacts Repr ReprFacts TypedRead TypedMain VRepr AnyRead AnyMain Unwrap RangeSpec SerNum SerWp SerRepr SerOk ThmTyped ThmAny Toy.
Import ListNotations.
Open Scope N_scope.
Open Scope list_scope.
Open Scope sm_scope.

Section WithEnv.
Context {E : Env} {X : XidOk E} {FO : FloatOk E}.

Section Write.
Variables (o : opts) (cfg : option pconf).
Hypothesis VC : valid_config cfg.
Local Notation e := (extensions o cfg).

(** ** Blocks that end in blanks only *)
Definition blanks (m : SM unit) (i i' : nat) : Prop :=
  forall b d, em m i b d (fun _ t i2 b2 d2 => ws_str t /\ i2 = i' /\ b2 = b /\ d2 = d).
Lemma blanks_ret i : blanks (sret tt) i i.
Proof. intros b d. apply em_ret. repeat constructor. Qed.
Lemma blanks_n n t i : ws_str t -> blanks (swrite_n n t) i i.
Proof.
  intros L. induction n as [|n IH]; cbn [swrite_n]; [apply blanks_ret|]. intros b d. apply em_write_bind.
  eapply em_conseq; [apply IH|]. cbn beta. intros _ t' i2 b2 d2 (L' & -> & -> & ->). split; [unfold ws_str in *; rewrite forallb_app, L, L'; reflexivity|auto].
Qed.
Lemma blanks_bind {B} m (k : SM B) i i1 b d Q : blanks m i i1 ->
  (forall w, ws_str w -> em k i1 b d (fun x t i2 b2 d2 => Q x (w ++ t) i2 b2 d2)) -> em (m ;~ k) i b d Q.
Proof.
  intros H HK. eapply em_bind; [apply H|]. cbn beta. intros _ t i' b' d' (L & -> & -> & ->). now apply HK.
Qed.
Lemma blanks_close w i : blanks (close_wide cfg w) (wider cfg w i) i.
Proof.
  unfold close_wide, wider. destruct w; [|apply blanks_ret].
  unfold end_indent, up, valid_config in *. destruct cfg as [p|]; [|apply blanks_ret]. destruct VC as (W1 & W2 & W3).
  intros b d. apply em_get. intros s IS _ _. rewrite IS.
  assert (L : blanks (if within p (S i) then match s_is_empty s with Some true => sret tt | _ => swrite_n (S i - 1) (p_indentor p) end else sret tt) (S i) (S i)).
  { destruct (within p (S i)); [|apply blanks_ret]. destruct (s_is_empty s) as [[|]|]; [apply blanks_ret|..]; now apply blanks_n. }
  eapply blanks_bind; [exact L|]. intros w LW. apply em_mod; [auto|]. intros s' _ <- <-. cbn. rewrite app_nil_r. auto.
Qed.
Section Loop.
Context {A C : Type}.
Variable step : C -> A -> SM C.
Variable isf : C -> bool.
Variable R : A -> str -> Prop.
Lemma rest_neat l ts : rest_of R l ts -> forall a t z z', R a t -> ending z -> ws_str z' -> neat R (a :: l) (t ++ ts ++ z ++ z').
Proof.
  induction 1 as [|a' t' w l ts HA L H IH]; intros a t z z' HT HE LZ.
  - cbn [app]. destruct HE as [->|(w & LW & ->)].
    + now apply ne_last.
    + change (t ++ (c_comma :: w) ++ z') with (t ++ c_comma :: w ++ z').
      replace (w ++ z') with ((w ++ z') ++ []) by (now rewrite app_nil_r).
      apply (ne_cons R a t (w ++ z') [] []); [assumption|apply layout_app; [assumption|now apply ws_str_layout]|constructor].
  - change (t ++ (c_comma :: w ++ t' ++ ts) ++ z ++ z') with (t ++ c_comma :: (w ++ t' ++ ts) ++ z ++ z').
    rewrite <- !app_assoc. apply (ne_cons R a t w (a' :: l)); auto.
Qed.
Lemma em_neat_block {B} i l c wide bw (k : C -> SM B) Q : (forall a, In a l -> SerWp.steps step isf R (wider cfg bw i) a) -> isf c = true ->
  (forall w ti c', layout w -> neat R l ti -> em (k c') i false 0 (fun x t i2 b2 d2 => Q x ((w ++ ti) ++ t) i2 b2 d2)) ->
  em (c' <~ loop step l c ;; (trailing cfg wide (isf c') ;~ (close_wide cfg bw ;~ k c'))) (wider cfg bw i) false 0 Q.
Proof.
  intros HS HC HK. destruct l as [|a l].
  - cbn [loop]. apply em_ret_bind. rewrite HC. eapply em_bind; [apply em_trailing; exact VC|]. cbn beta.
    intros _ t i2 b2 d2 (-> & -> & -> & ->). eapply blanks_bind; [apply blanks_close|]. intros w LW.
    eapply em_conseq; [apply (HK w [] c); [now apply ws_str_layout|constructor]|]. cbn beta. intros x t i2 b2 d2. now rewrite app_nil_r.
  - cbn [loop]. eapply em_bind with (Q1 := fun c' t i2 b2 d2 => (isf c' = false /\ i2 = wider cfg bw i /\ b2 = false /\ d2 = 0%nat) /\
      exists w t0 ts, layout w /\ R a t0 /\ rest_of R l ts /\ t = w ++ t0 ++ ts).
    + eapply em_bind; [apply (HS a (or_introl eq_refl))|]. cbn beta.
      intros c' t i2 b2 d2 ((F & -> & -> & ->) & w & t0 & LW & RA & ->). rewrite HC.
      eapply em_conseq; [apply em_loop_rest; [intros; apply HS; now right|exact F]|]. cbn beta.
      intros c2 t i2 b2 d2 (H & RO). split; [exact H|]. exists w, t0, t. cbn [app]. rewrite <- app_assoc. auto.
    + cbn beta. intros c' t i2 b2 d2 ((F & -> & -> & ->) & w & t0 & ts & LW & RA & RO & ->). rewrite F.
      eapply em_bind; [apply em_trailing; exact VC|]. cbn beta. intros _ z i2 b2 d2 (HE & -> & -> & ->).
      eapply blanks_bind; [apply blanks_close|]. intros z' LZ.
      eapply em_conseq; [apply (HK w (t0 ++ ts ++ z ++ z') c'); [assumption|now apply rest_neat]|]. cbn beta.
      intros x t i2 b2 d2. now rewrite <- !app_assoc.
Qed.
End Loop.

(** ** What is written for a Value *)
Variable R : num -> num -> Prop.
Hypothesis HN : forall n t, Typing.num_ok float_val n -> repr e (sf cfg) (embed_num n) t -> exists n', R n n' /\ num_text n' t.
Hypothesis UV : x_unwrap_variant_newtypes e = true.
Definition W (x : value) (t : str) : Prop := exists x', renumbered R x x' /\ urepr x' t.
(** a unit below a Some is left out *)
Definition wrote (i : nat) (b : bool) (x : value) : unit -> str -> nat -> bool -> nat -> Prop :=
  fun _ t i' b' d' => i' = i /\ (b = false -> b' = false) /\ d' = 0%nat /\ (W x t \/ b = true /\ x = XUnit /\ t = []).
Definition unwraps_to (x : value) : Prop := forall i b, em (ser o cfg (embed x)) i b 0 (wrote i b x).
Lemma W_flat x t : flat_value x -> (forall n, x <> XNum n) -> urepr x t -> W x t.
Proof. intros F NN U. exists x. split; [now apply rn_flat|exact U]. Qed.
Lemma wrote_emits m x t i b : emits m t -> W x t -> em m i b 0 (wrote i b x).
Proof. intros EM HW. apply (em_emits _ t); [exact EM|]. repeat split; auto. Qed.
Lemma wrote_num m n t i b : emits m t -> Typing.num_ok float_val n -> repr e (sf cfg) (embed_num n) t -> em m i b 0 (wrote i b (XNum n)).
Proof.
  intros EM OK RP. apply (wrote_emits _ _ t); [exact EM|]. destruct (HN n t OK RP) as (n' & HR & NT). exists (XNum n'). split; now constructor.
Qed.
Lemma flat_written x : flat_value x -> any_ok float_val x -> unwraps_to x.
Proof.
  intros F OK i b. destruct x as [b0|c|m|n| |y|s|bs|l|]; try contradiction; cbn [embed ser].
  - eapply wrote_emits; [apply emits_write|]. apply W_flat; [exact Logic.I|discriminate|constructor].
  - destruct (emits_char c) as (t & EM & CL). eapply wrote_emits; [exact EM|]. apply W_flat; [exact Logic.I|discriminate|now constructor].
  - inversion OK as [| | |? NO| | | | | |]; subst. destruct n as [k z|k bits]; cbn [embed_num ser].
    + destruct (int_supported k) eqn:SP; [|unfold ser_int; rewrite SP; apply em_fail].
      eapply wrote_num; [now apply emits_int|exact NO|]. cbn [embed_num].
      destruct (number_suffixes cfg) eqn:NS; [now apply r_int_suffix; [|..|apply show_Z_lit]|].
      rewrite app_nil_r. now apply r_int; [|..|apply show_Z_lit].
    + destruct NO as [B C].
      assert (FL : float_lit k (number_suffixes cfg) (float_text k bits ++ if number_suffixes cfg then fk_suffix k else []) bits).
      { destruct (number_suffixes cfg); [constructor|rewrite app_nil_r]; rewrite <- C at 2; now apply float_text_lit. }
      eapply wrote_num; [apply emits_float|split; assumption|]. cbn [embed_num].
      eapply r_float; [|exact FL]. split; [reflexivity|]. split; [assumption|reflexivity].
  - unfold ser_none. apply em_get. intros s _ _ SD. rewrite SD.
    eapply em_mod_bind with (i' := i) (b' := b) (d' := 0%nat); [auto|intros s' <- <- <-; auto|].
    apply (wrote_emits _ _ s_None); [|apply W_flat; [exact Logic.I|discriminate|constructor]].
    cbn [swrite_n]. change s_None with ([] ++ s_None ++ []). apply emits_seq; [apply emits_ret|]. apply emits_seq; [apply emits_write|apply emits_ret].
  - inversion OK; subst. destruct (emits_str cfg s) as (t & EM & CL); [assumption|]. eapply wrote_emits; [exact EM|]. apply W_flat; [exact Logic.I|discriminate|now constructor].
  - inversion OK; subst. destruct (emits_bytes cfg bs) as (t & EM & CL); [assumption|]. eapply wrote_emits; [exact EM|]. apply W_flat; [exact Logic.I|discriminate|now constructor].
  - unfold ser_unit. apply em_get. intros s _ NT _. rewrite NT. destruct b.
    + apply em_ret. repeat split; auto.
    + apply em_write. repeat split; auto. left. apply W_flat; [exact Logic.I|discriminate|constructor].
Qed.
Lemma some_written x : x_implicit_some e = false -> unwraps_to x -> unwraps_to (XSome x).
Proof.
  intros IS H i b. cbn [embed ser]. unfold ser_some. rewrite IS.
  eapply em_mod_bind with (i' := i) (b' := true) (d' := 0%nat); [auto|intros s H1 H2 H3; cbn; auto|].
  apply em_write_bind. eapply em_bind; [apply em_guard, H|]. cbn beta. intros [] t i' b' d' (-> & _ & -> & HW).
  apply em_write_bind. apply em_mod; [auto|]. intros s SI SB SD. cbn [sset_nt s_indent s_nt s_isd]. split; [exact SI|]. split; [auto|]. split; [exact SD|].
  left. rewrite app_nil_r. destruct HW as [(x' & RN & U)|(_ & -> & ->)].
  - exists (XSome x'). split; [now constructor|]. change (s_Some_open ++ t ++ [c_rp]) with (s_Some ++ c_lp :: t ++ [c_rp]). now apply u_some.
  - exists (XSome XUnit). split; [constructor; apply rn_flat; [exact Logic.I|discriminate]|]. apply u_some_unit.
Qed.
(** an element *)
Lemma elem_written x i : unwraps_to x -> em (ser o cfg (embed x)) i false 0 (fun _ t i' b' d' => W x t /\ i' = i /\ b' = false /\ d' = 0%nat).
Proof.
  intros H. eapply em_conseq; [apply H|]. cbn beta. intros [] t i' b' d' (-> & HB & -> & [HW|(? & _)]); [|discriminate]. auto.
Qed.
Lemma neat_W l t : neat W l t -> exists l', Forall2 (renumbered R) l l' /\ neat urepr l' t.
Proof.
  induction 1 as [|x t w (x' & RN & U) LW|x t w l ts (x' & RN & U) LW _ (l' & F & NE)].
  - exists []. split; constructor.
  - exists [x']. split; [repeat constructor; assumption|now constructor].
  - exists (x' :: l'). split; constructor; assumption.
Qed.
Lemma neat_entries_W l t : neat (neat_entry W W) l t ->
  exists l', Forall2 (fun kv kv' => renumbered R (fst kv) (fst kv') /\ renumbered R (snd kv) (snd kv')) l l' /\ neat (neat_entry urepr urepr) l' t.
Proof.
  assert (EN : forall kv t, neat_entry W W kv t -> exists kv', (renumbered R (fst kv) (fst kv') /\ renumbered R (snd kv) (snd kv')) /\ neat_entry urepr urepr kv' t).
  { intros kv t0 [k tk v tv w (k' & RK & UK) L (v' & RV & UW)]. exists (k', v'). split; [now split|now constructor]. }
  induction 1 as [|x t w HE LW|x t w l ts HE LW _ (l' & F & NE)].
  - exists []. split; constructor.
  - destruct (EN _ _ HE) as (x' & RN & U). exists [x']. split; [repeat constructor; tauto|now constructor].
  - destruct (EN _ _ HE) as (x' & RN & U). exists (x' :: l'). split; constructor; assumption.
Qed.
Lemma loop_map {A B C} (step : C -> B -> SM C) (f : A -> B) l : forall c s, loop step (map f l) c s = loop (fun c a => step c (f a)) l c s.
Proof. induction l as [|a l IH]; intros c s; [reflexivity|]. cbn [map loop]. apply sbind_ext; auto. Qed.
Lemma seq_written l : (forall x, In x l -> unwraps_to x) -> unwraps_to (XSeq l).
Proof.
  intros H i b. cbn [embed ser]. eapply em_bind; [apply em_open; exact VC|]. cbn beta.
  intros _ t i2 b2 d2 ((w & L & ->) & -> & -> & ->).
  eapply em_ext with (m' := c <~ loop (fun c x => seq_elem cfg c (ser o cfg (embed x))) l (true, 0%nat) ;; seq_close cfg c).
  { intros s. apply sbind_ext; [|auto]. intros s'. apply (loop_map (fun c v => seq_elem cfg c (ser o cfg v))). }
  apply (em_neat_block (fun c x => seq_elem cfg c (ser o cfg (embed x))) fst W i l (true, 0%nat) wide_seq (negb (compact_arrays cfg))
    (fun _ => write [c_rb] ;~ drop_compound)); [|reflexivity|].
  - intros x IN. exact (seq_steps o cfg VC (fun _ => W x) _ (embed x) (fun i => elem_written x i (H x IN))).
  - intros w' ti c' L' IT. apply em_write_bind. eapply em_conseq; [apply em_drop|]. cbn beta. intros [] t i2 b2 d2 (-> & -> & -> & ->).
    repeat split; auto. left. destruct (neat_W l ti IT) as (l' & F & NE). exists (XSeq l'). split; [now constructor|].
    match goal with |- urepr _ ?t => replace t with (c_lb :: (w ++ w') ++ ti ++ [c_rb]) by (unfold str, char; cbn [app]; rewrite <- !app_assoc; reflexivity) end.
    apply (u_seq l' ti (w ++ w')); [now apply layout_app|exact NE].
Qed.
Lemma entry_steps i kv : unwraps_to (fst kv) /\ unwraps_to (snd kv) ->
  SerWp.steps (fun c kv => map_entry cfg c (ser o cfg (embed (fst kv))) (ser o cfg (embed (snd kv)))) (fun b => b) (neat_entry W W) i kv.
Proof.
  intros [HK HV] first. unfold map_entry.
  eapply puts_bind; [apply puts_sep; exact VC|]. intros t1 (w1 & L1 & ->).
  eapply puts_bind; [apply puts_indent'; exact VC|]. intros w2 L2.
  eapply em_bind; [apply em_guard, elem_written, HK|]. cbn beta. intros u tk i2 b2 d2 (HE & -> & -> & ->).
  apply em_write_bind. eapply puts_bind; [apply puts_pretty_sep; exact VC|]. intros w3 L3.
  eapply em_bind; [apply em_guard, elem_written, HV|]. cbn beta. intros u' tv i2 b2 d2 (HE' & -> & -> & ->).
  apply em_ret. split; [auto|]. exists (w1 ++ w2), (tk ++ c_colon :: w3 ++ tv). split; [now apply layout_app|].
  split; [destruct kv; constructor; auto|]. rewrite app_nil_r, <- !app_assoc. reflexivity.
Qed.
Lemma map_written m : (forall kv, In kv m -> unwraps_to (fst kv) /\ unwraps_to (snd kv)) -> unwraps_to (XMap m).
Proof.
  intros H i b. cbn [embed ser]. eapply em_bind; [apply em_open; exact VC|]. cbn beta.
  intros _ t i2 b2 d2 ((w & L & ->) & -> & -> & ->).
  eapply em_ext with (m' := f <~ loop (fun c kv => map_entry cfg c (ser o cfg (embed (fst kv))) (ser o cfg (embed (snd kv)))) m true ;; map_close cfg f).
  { intros s. apply sbind_ext; [|auto]. clear. generalize true. induction m as [|[k v] l IH]; intros c s; [reflexivity|].
    cbn [loop fst snd map]. apply sbind_ext; auto. }
  apply (em_neat_block (fun c kv => map_entry cfg c (ser o cfg (embed (fst kv))) (ser o cfg (embed (snd kv)))) (fun b => b) (neat_entry W W) i m true wide_map (negb (compact_maps cfg))
    (fun _ => write [c_rc] ;~ drop_compound)); [|reflexivity|].
  - intros kv IN. apply entry_steps. auto.
  - intros w' ti c' L' IT. apply em_write_bind. eapply em_conseq; [apply em_drop|]. cbn beta. intros [] t i2 b2 d2 (-> & -> & -> & ->).
    repeat split; auto. left. destruct (neat_entries_W m ti IT) as (l' & F & NE). exists (XMap l'). split; [now constructor|].
    match goal with |- urepr _ ?t => replace t with (c_lc :: (w ++ w') ++ ti ++ [c_rc]) by (unfold str, char; cbn [app]; rewrite <- !app_assoc; reflexivity) end.
    apply (u_map l' ti (w ++ w')); [now apply layout_app|exact NE].
Qed.
Lemma value_unwraps x : somes (x_implicit_some e = false) x -> any_ok float_val x -> unwraps_to x.
Proof.
  induction x as [x F|x IH|l IH|m IH] using value_ind'; intros SM OK.
  - now apply flat_written.
  - destruct SM as [IS SM]. inversion OK; subst. apply some_written; auto.
  - inversion OK as [| | | | | | | |? FA|]; subst. apply seq_written. intros x IN. cbn [somes] in SM. rewrite all_in in IH, SM. rewrite Forall_forall in FA. auto.
  - inversion OK as [| |? FA| | | | | | |]; subst. apply map_written. intros kv IN. cbn [somes] in SM. rewrite all_in in IH, SM. rewrite Forall_forall in FA.
    destruct (IH kv IN), (SM kv IN), (FA kv IN). auto.
Qed.
Lemma value_text x text : somes (x_implicit_some e = false) x -> any_ok float_val x -> to_string o cfg (embed x) = inl text ->
  exists a y x' t, text = a ++ t /\ attrs_text a y /\ exts_or y (o_exts o) = e /\ renumbered R x x' /\ urepr x' t.
Proof.
  intros SM OK TS. destruct (emits_new o cfg VC) as (a & y & EA & HA & EX).
  unfold to_string, to_writer in TS. unfold sbind in TS. rewrite EA in TS by reflexivity.
  assert (S := elem_written x 0 (value_unwraps x SM OK)). specialize (S (sset_out (w_out (ser_init o cfg None) ++ a) (ser_init o cfg None)) eq_refl eq_refl eq_refl eq_refl).
  destruct (ser o cfg (embed x) _) as [u s'| |]; [|discriminate|contradiction]. destruct S as (t & OUT & _ & (x' & RN & U) & _).
  injection TS as <-. exists a, y, x', t. rewrite OUT. auto.
Qed.
End Write.

Open Scope m_scope.
(** ** Reading *)
Lemma urepr_start x t r : urepr x t -> value_start (t ++ r).
Proof.
  intros H. assert (O := urepr_opens x t r H). split; [now apply opens_solid|].
  destruct (t ++ r) as [|c q]; [exact Logic.I|]. destruct O as [_ O]. intros ->. apply O. cbn. tauto.
Qed.
Theorem unwrapped_document o x w0 at0 e t w1 :
  layout w0 -> attrs_text at0 e -> x_unwrap_variant_newtypes (exts_or e (o_exts o)) = true ->
  urepr x t -> final_layout w1 -> room (vneed x) (o_limit o) ->
  options_from_str o any_value (w0 ++ at0 ++ t ++ w1) = RValue x.
Proof.
  intros L HA UV HV FL RM. eapply document_reads_final; [exact L|exact HA|now apply urepr_start with x|].
  intros T s J Hs He Hn Hl _. unfold any_value. eapply wp_bind_ok; [reflexivity|].
  replace (2 * length (rest s) + 3)%nat with (S (2 * length (rest s) + 2)) by lia.
  destruct (readable_good _ (2 * length (rest s) + 2)%nat (vneed x) x t HV (urepr_reads _ UV x t HV)) as [_ TW]; [rewrite Hs, app_length; unfold str, char in *; lia|lia|].
  eapply wp_conseq; [apply (TW T s w1 final_layout); auto; [now left|now rewrite Hl]| |auto]. cbn beta. tauto.
Qed.
Lemma value_unwrapped (R : num -> num -> Prop) o cfg x text : valid_config cfg ->
  x_unwrap_variant_newtypes (extensions o cfg) = true -> somes (x_implicit_some (extensions o cfg) = false) x ->
  any_ok float_val x -> room (vneed x) (o_limit o) ->
  (forall n t, Typing.num_ok float_val n -> repr (extensions o cfg) (sf cfg) (embed_num n) t -> exists n', R n n' /\ num_text n' t) ->
  to_string o cfg (embed x) = inl text ->
  exists x', renumbered R x x' /\ options_from_str o any_value text = RValue x'.
Proof.
  intros VC UV SM OK RM HN TS. destruct (value_text o cfg VC R HN UV x text SM OK TS) as (a & y & x' & t & -> & HA & EX & RN & HU).
  exists x'. split; [exact RN|]. rewrite <- (app_nil_r t). apply (unwrapped_document o x' [] a y t []); auto.
  - constructor.
  - now rewrite EX.
  - left. constructor.
  - now rewrite (renumbered_need R x x').
Qed.

(** ** The round trip *)
Lemma value_back (R : num -> num -> Prop) o cfg x text : valid_config cfg -> somes (x_implicit_some (extensions o cfg) = false) x ->
  any_ok float_val x -> room (vneed x) (o_limit o) ->
  (forall n t, Typing.num_ok float_val n -> repr (extensions o cfg) (sf cfg) (embed_num n) t -> exists n', R n n' /\ num_text n' t) ->
  to_string o cfg (embed x) = inl text ->
  exists x', renumbered R x x' /\ options_from_str o any_value text = RValue x'.
Proof. destruct (x_unwrap_variant_newtypes (extensions o cfg)) eqn:UV; intros; [now apply (value_unwrapped R o cfg x)|now apply (value_written R o cfg x)]. Qed.
(** C14: the same Value comes back.  Missing: a Some under implicit_some, where
    it is false (C14_implicit_some_refuted). *)
Theorem C14_value_round_trip_partial tenv f o cfg x text : valid_config cfg ->
  somes (x_implicit_some (extensions o cfg) = false) x ->
  number_suffixes cfg = true -> a_value x -> room (vneed x) (o_limit o) ->
  to_string o cfg (embed x) = inl text ->
  options_from_str o (de_ty tenv (S f) TAny) text = RValue (embed x).
Proof.
  intros VC SM SX [OK PR] RM TS.
  destruct (value_back eq o cfg x text) as (x' & RN & RD); auto; [intros n t ON RP; exists n; split; [reflexivity|now apply (num_suffixed o cfg)]|].
  apply renumbered_eq in RN as <-. apply (bind_value o any_value (fun x => embed (norm x))) in RD.
  rewrite proper_norm in RD by auto using any_ok_wf. exact RD.
Qed.
(** C15: a Value of the same shape comes back, with every number read back as
    [read_back] says, before its maps are sorted.  Missing: a Some under
    implicit_some, that the maps keep their entries, and that an f32 denotes the
    same number, all of which are false. *)
Theorem C15_value_round_trip_partial tenv f o cfg x text : valid_config cfg ->
  somes (x_implicit_some (extensions o cfg) = false) x ->
  number_suffixes cfg = false -> a_value x -> room (vneed x) (o_limit o) ->
  (forall b, f_finite F32 b -> exists b', f_read F64 (float_text F32 b) = Some b') ->
  to_string o cfg (embed x) = inl text ->
  exists x', renumbered read_back x x' /\
    options_from_str o any_value text = RValue x' /\
    options_from_str o (de_ty tenv (S f) TAny) text = RValue (embed (norm x')).
Proof.
  intros VC SM SX [OK PR] RM F32R TS.
  destruct (value_back read_back o cfg x text) as (x' & RN & RD); auto; [intros n t ON RP; now apply (num_unsuffixed o cfg)|].
  exists x'. split; [exact RN|]. split; [exact RD|]. exact (bind_value o any_value (fun x => embed (norm x)) _ _ RD).
Qed.
End WithEnv.
Print Assumptions C14_value_round_trip_partial.
Print Assumptions C15_value_round_trip_partial.

#[local] Existing Instance Toy.
#[local] Existing Instance toy_xid.
#[local] Existing Instance toy_float.
(** [Some(()), Some(Some("),")), Some([1u8, 2u8]), Some({'(': None})]: the unit is
    left out, and the look-ahead passes over the literals and the brackets *)
Definition ex_unwrapped : value := XSeq
  [XSome XUnit; XSome (XSome (XStr (lit "),"))); XSome (XSeq [XNum (NInt U8 1); XNum (NInt U8 2)]); XSome (XMap [(XChar 40, XNone)])].
Definition ex_unwrap : opts := Opts (Exts false false true false) None.
Lemma ex_unwrapped_value : a_value ex_unwrapped.
Proof.
  split.
  - repeat first [apply any_map|apply any_seq|apply any_some|constructor]; try (split; reflexivity); reflexivity.
  - apply pr_seq. repeat first [apply Forall_nil|apply Forall_cons|apply pr_some|apply pr_seq|apply pr_map|apply pr_flat; exact Logic.I].
    + split; apply pr_flat; exact Logic.I.
    + repeat split; intros k v IN; contradiction.
Qed.
Example C14_unwrapped_ex : a_value ex_unwrapped /\ x_unwrap_variant_newtypes (extensions ex_unwrap ex_suffixes) = true /\
  somes (x_implicit_some (extensions ex_unwrap ex_suffixes) = false) ex_unwrapped /\
  to_string ex_unwrap ex_suffixes (embed ex_unwrapped) =
    inl (lit "[Some(), Some(Some(""),"")), Some([1u8, 2u8]), Some({'(': None})]") /\
  options_from_str ex_unwrap (de_ty (fun _ => TUnit) 1 TAny) (lit "[Some(), Some(Some(""),"")), Some([1u8, 2u8]), Some({'(': None})]") =
    RValue (embed ex_unwrapped).
Proof. split; [apply ex_unwrapped_value|]. vm_compute. repeat split; auto. Qed.
Example C15_unwrapped_ex : a_value ex_unwrapped /\
  to_string ex_unwrap None (embed ex_unwrapped) = inl (lit "[Some(),Some(Some(""),"")),Some([1,2]),Some({'(':None})]") /\
  options_from_str ex_unwrap any_value (lit "[Some(),Some(Some(""),"")),Some([1,2]),Some({'(':None})]") = RValue ex_unwrapped.
Proof. split; [apply ex_unwrapped_value|]. vm_compute. auto. Qed.
