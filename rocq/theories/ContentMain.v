(** Reading values into serde's buffer. *)
From Coq Require Import String Ascii NArith ZArith Lia Bool List.
From Coq Require Import ZifyBool ZifyNat ZifyN.
From Verif Require Import Base Facts Value Data Parse De Wp EnvOk Layout Lit LexSafe LexWs LexRead DocSafe DocRead SerLex Typing Repr ReprFacts TypedRead VRepr AnyRead AnyMain Unwrap IntoRust Content ContentRead.
Import ListNotations.
Open Scope N_scope.
Open Scope list_scope.
Open Scope m_scope.

Section WithEnv.
Context {E : Env} {X : XidOk E} {FO : FloatOk E}.

(** ** No 128-bit integers *)
Lemma crepr_narrow_num u c x t : crepr u c x t -> wide_num x = false.
Proof. destruct 1; try assumption; try reflexivity. now destruct H. Qed.
Lemma carg_narrow_num u c x t : carg (crepr u) c x t -> wide_num x = false.
Proof. destruct 1; try reflexivity. eapply crepr_narrow_num; eassumption. Qed.
Lemma neat_forall {A} (R : A -> str -> Prop) (P : A -> Prop) l t : (forall a t, R a t -> P a) -> neat R l t -> Forall P l.
Proof. intros H. induction 1; constructor; eauto. Qed.
Lemma neat_narrow {K} (RK : K -> str -> Prop) u c l t : neat (neat_entry RK (crepr u c)) l t -> existsb (fun kv => wide_num (snd kv)) l = false.
Proof.
  intros H. assert (F : Forall (fun kv => wide_num (snd kv) = false) l).
  { eapply neat_forall; [|exact H]. intros kv t' HE. destruct HE. eapply crepr_narrow_num; eassumption. }
  clear H. induction F as [|kv l HA F IH]; [reflexivity|]. cbn [existsb]. now rewrite HA, IH.
Qed.
Lemma crepr_narrow u c x t : crepr u c x t -> wide x = false.
Proof.
  intros H. assert (N := crepr_narrow_num u c x t H). destruct H; try exact N; try reflexivity.
  - assumption.
  - cbn [wide existsb snd]. erewrite carg_narrow_num by eassumption. reflexivity.
  - eapply neat_narrow; eassumption.
  - cbn [wide]. assert (Q := neat_narrow _ _ _ _ _ H1). clear - Q. induction fs as [|f fs IH]; [reflexivity|]. cbn in *. apply orb_false_elim in Q as [-> Q]. now rewrite IH.
Qed.
Lemma carg_narrow u c x t : carg (crepr u) c x t -> wide x = false.
Proof.
  destruct 1; try reflexivity.
  - eapply crepr_narrow; eassumption.
  - cbn [wide]. assert (Q := neat_narrow _ _ _ _ _ H1). clear - Q. induction fs as [|f fs IH]; [reflexivity|]. cbn in *. apply orb_false_elim in Q as [-> Q]. now rewrite IH.
Qed.

(** ** The branches *)
Section Con.
Variable con : bool -> M value.
Definition content_branch (n : bool) (c : char) : M value :=
  if c =? c_lp then content_struct con n None
  else any_branch (con false) c.
Definition content_tail (n : bool) : M value :=
  id <- skip_identifier ;;
  match id with
  | Some id => skip_ws ;;; content_struct con n (Some id)
  | None => c <- peek_char_or_eof ;; content_branch n c
  end.
(** the words, and then [k] *)
Definition chain (any : M value) (k : M value) : M value :=
  b <- consume_ident s_true ;;
  if b then ret (XBool true) else
  b <- consume_ident s_false ;;
  if b then ret (XBool false) else
  b <- check_ident s_Some ;;
  if b then de_option XNone (v <- any ;; ret (XSome v)) else
  b <- consume_ident s_None ;;
  if b then ret XNone else
  b <- consume_str s_unit ;;
  if b then ret XUnit else
  b <- consume_ident s_inf ;;
  b <- (if b then ret true else consume_ident s_inff32) ;;
  if b then float_range_or_value (NFloat F32 (f_inf F32)) else
  b <- consume_ident s_inff64 ;;
  if b then float_range_or_value (NFloat F64 (f_inf F64)) else
  b <- consume_ident s_NaN ;;
  b <- (if b then ret true else consume_ident s_NaNf32) ;;
  if b then float_range_or_value (NFloat F32 (f_nan F32)) else
  b <- consume_ident s_NaNf64 ;;
  if b then float_range_or_value (NFloat F64 (f_nan F64)) else k.
Lemma chain_any any : any_main any = chain any (any_tail any).
Proof. reflexivity. Qed.
Lemma bind_eq {A B} (m : M A) (k k' : A -> M B) s : (forall a s', m s = Ok a s' -> k a s' = k' a s') -> bind m k s = bind m k' s.
Proof. intros H. unfold bind. destruct (m s); auto. Qed.
Lemma chain_eq any k k' s : (no_word (rest s) -> starts_with s_unit (rest s) = false -> k s = k' s) -> chain any k s = chain any k' s.
Proof.
  intros H. unfold chain.
  assert (CI : forall w b s', consume_ident w s = Ok b s' -> b = false -> ident_at w (rest s) = false /\ s' = s).
  { intros w b s' H1 ->. rewrite consume_ident_eq in H1. destruct (ident_at w (rest s)); [destruct (strip_prefix w (rest s)); discriminate|]. split; congruence. }
  apply bind_eq. intros [|] s1 E1; [reflexivity|]. destruct (CI _ _ _ E1 eq_refl) as [W1 ->].
  apply bind_eq. intros [|] s1 E2; [reflexivity|]. destruct (CI _ _ _ E2 eq_refl) as [W2 ->].
  apply bind_eq. intros b s1 E3. rewrite check_ident_eq in E3. injection E3 as E3 <-. destruct b; [reflexivity|].
  apply bind_eq. intros [|] s1 E4; [reflexivity|]. destruct (CI _ _ _ E4 eq_refl) as [W4 ->].
  apply bind_eq. intros b s1 E5. rewrite consume_str_eq in E5. destruct b; [reflexivity|].
  assert (U : starts_with s_unit (rest s) = false /\ s1 = s) by (unfold starts_with; destruct (strip_prefix s_unit (rest s)); [discriminate|]; split; congruence).
  destruct U as [U ->].
  apply bind_eq. intros b s1 E6. destruct b; [reflexivity|]. destruct (CI _ _ _ E6 eq_refl) as [W6 ->].
  apply bind_eq. intros b s1 E7. destruct b; [reflexivity|]. destruct (CI _ _ _ E7 eq_refl) as [W7 ->].
  apply bind_eq. intros b s1 E8. destruct b; [reflexivity|]. destruct (CI _ _ _ E8 eq_refl) as [W8 ->].
  apply bind_eq. intros b s1 E9. destruct b; [reflexivity|]. destruct (CI _ _ _ E9 eq_refl) as [W9 ->].
  apply bind_eq. intros b s1 E10. destruct b; [reflexivity|]. destruct (CI _ _ _ E10 eq_refl) as [W10 ->].
  apply bind_eq. intros b s1 E11. destruct b; [reflexivity|]. destruct (CI _ _ _ E11 eq_refl) as [W11 ->].
  apply H; [|exact U]. intros w IN. cbn in IN. repeat (destruct IN as [<-|IN]; [assumption|]). contradiction.
Qed.
Lemma chain_content n s : content_tree con n s = chain (con false) (content_tail n) s.
Proof.
  unfold content_tree, chain.
  assert (TE : forall s, (id <- skip_identifier ;;
  match id with
  | Some id => skip_ws ;;; content_struct con n (Some id)
  | None =>
      c <- peek_char_or_eof ;;
      if c =? c_lp then content_struct con n None
      else if c =? c_lb then de_seq (l <- seq_all c_rb (con false) ;; ret (XSeq l))
      else if c =? c_lc then de_map (l <- map_all c_rc (con false) (con false) ;; ret (XMap l))
      else if is_digit c || (c =? c_plus) || (c =? c_minus) || (c =? c_dot) || (c =? c_b)
      then any_number_or_bytes
      else if (c =? c_dq) || (c =? c_r) then (s <- parse_string ;; ret (XStr s))
      else if c =? c_sq then (c <- parse_char ;; ret (XChar c))
      else fail (EUnexpectedChar c)
  end) s = content_tail n s).
  { intros s0. unfold content_tail. apply bind_eq. intros [id|] s1 _; [reflexivity|]. apply bind_eq. intros c s2 _. unfold content_branch, any_branch.
    now destruct (c =? c_lp). }
  repeat (apply bind_eq; intros ? ? _; match goal with |- (if ?b then _ else _) _ = _ => destruct b; [reflexivity|]
    | |- bind (if ?b then _ else _) _ _ = _ => idtac end).
  all: try apply TE.
Qed.
Lemma content_tree_skip n s : no_word (rest s) -> starts_with s_unit (rest s) = false -> content_tree con n s = content_tail n s.
Proof.
  intros W U. rewrite chain_content.
  assert (Q : any_main (con false) s = any_tail (con false) s) by now apply any_main_skip.
  clear Q. unfold chain.
  assert (CI : forall w, In w keywords -> consume_ident w s = Ok false s) by (intros w IN; now apply consume_ident_false, W).
  do 2 (unfold bind at 1; rewrite CI by (cbn; tauto)).
  unfold bind at 1. rewrite check_ident_eq, W by (cbn; tauto). cbv iota.
  unfold bind at 1; rewrite CI by (cbn; tauto).
  unfold bind at 1. rewrite consume_str_eq. unfold starts_with in U. destruct (strip_prefix s_unit (rest s)); [discriminate|].
  unfold bind at 1. rewrite CI by (cbn; tauto). unfold bind at 1. rewrite CI by (cbn; tauto).
  unfold bind at 1. rewrite CI by (cbn; tauto).
  unfold bind at 1. rewrite CI by (cbn; tauto). unfold bind at 1. rewrite CI by (cbn; tauto).
  unfold bind at 1. rewrite CI by (cbn; tauto). reflexivity.
Qed.
(** like [any_main] if the text begins with a word or a unit, or with something
    that is neither an identifier nor an opening parenthesis *)
Lemma tree_word n s : ~ (no_word (rest s) /\ starts_with s_unit (rest s) = false) -> content_tree con n s = any_main (con false) s.
Proof. intros H. rewrite chain_content, chain_any. apply chain_eq. tauto. Qed.
Lemma tree_head n s c t r : noid (c :: t) -> c <> c_lp -> rest s = (c :: t) ++ r -> content_tree con n s = any_main (con false) s.
Proof.
  intros NI NL Hs. rewrite chain_content, chain_any. apply chain_eq. intros _ _.
  rewrite (any_tail_noid (con false) s c t r NI Hs). unfold content_tail. unfold bind at 1. rewrite (NI s r Hs).
  unfold bind, peek_char_or_eof, bind, peek_char. rewrite Hs. cbn [app]. unfold ret, content_branch. apply N.eqb_neq in NL. now rewrite NL.
Qed.
Lemma struct_any s : content_struct con false None s = any_struct (con false) s.
Proof. unfold content_struct, any_struct. apply bind_eq. now intros [] s' _. Qed.
(** a parenthesis with something in it *)
Lemma tree_lp n s t : rest s = c_lp :: t -> starts_with s_unit (c_lp :: t) = false -> content_tree con n s = content_struct con n None s.
Proof.
  intros Hs SU. rewrite content_tree_skip; rewrite ?Hs; [|apply no_word_head; cbn; intuition discriminate|exact SU].
  assert (N0 : noid (c_lp :: t)) by (apply noid_head; [now apply not_first|discriminate]).
  unfold content_tail. unfold bind at 1. rewrite (N0 s []) by (now rewrite app_nil_r). unfold bind, peek_char_or_eof, bind, peek_char. now rewrite Hs.
Qed.
Lemma tree_ident n s t m r : ident_lit t m -> ~ In t keywords -> ident_end r -> rest s = t ++ r -> content_tree con n s = content_tail n s.
Proof. intros HI NK D Hs. apply content_tree_skip; rewrite Hs; [eapply no_word_ident; eassumption|eapply ident_not_unit; eassumption]. Qed.
End Con.

(** the look-ahead for a variant does not fail *)
Definition seen (ta : str) : Prop := forall T s r, inv T s -> rest s = c_lp :: ta ++ c_rp :: r ->
  wp (check_struct_type true false) (fun ty s' => ty <> SUnit /\ rest s' = rest s /\ adv T s s') (fun _ _ => False) s.
Lemma tuple_not_unit ty : is_tuple ty -> ty <> SUnit.
Proof. intros [->|[->|[->| ->]]]; discriminate. Qed.
Lemma carg_seen u c x t : carg (crepr u) c x t -> seen t.
Proof.
  intros H T s r J Hs.
  assert (TU : forall Q, wp (check_struct_type true false) (fun ty s' => is_tuple ty /\ Q s') (fun _ _ => False) s ->
    wp (check_struct_type true false) (fun ty s' => ty <> SUnit /\ Q s') (fun _ _ => False) s).
  { intros Q W. eapply wp_conseq; [exact W| |auto]. cbn beta. intros ty s' [I0 Q0]. split; [now apply tuple_not_unit|exact Q0]. }
  assert (CP : closer c_rp) by (cbn; tauto).
  destruct H as [c|c x t H|c l t w N L H|c fs t w N L H].
  - apply TU. eapply check_type_empty with (w := []); [exact J|exact Hs|constructor].
  - apply TU. eapply check_type_look with (w := []) (r := t ++ c_rp :: r); [exact J|exact Hs|constructor|eapply crepr_opens; eassumption|].
    intros s' A' R'. eapply look_tuple; [eapply ilead_lead, crepr_ilead; exact H|apply A'|exact R'|]. exists []. split; [constructor|]. left. now exists r.
  - destruct H as [|a ta w1 H W1|a ta w1 l ts H L1 HI]; [cbn in N; lia|cbn in N; lia|].
    apply TU. eapply check_type_look with (w := w) (r := ta ++ c_comma :: w1 ++ ts ++ c_rp :: r); [exact J|rewrite Hs; texts|exact L|eapply crepr_opens; eassumption|].
    intros s' A' R'. eapply look_tuple; [eapply ilead_lead, crepr_ilead; exact H|apply A'|exact R'|]. exists []. split; [constructor|]. right.
    exists w1, (ts ++ c_rp :: r). split; [exact L1|]. split; [|reflexivity].
    eapply items_solid; [|apply neat_items; exact HI|apply solid_char; reflexivity || discriminate]. intros a' t' H' r'. eapply crepr_opens; eassumption.
  - assert (F : exists k tk t', ident_lit tk k /\ t = tk ++ c_colon :: t').
    { destruct H as [|a ta w1 H W1|a ta w1 l ts H L1 HI]; [congruence|..]; destruct H as [k tk v tv w3 HK L3 HV]; exists k, tk; eexists; (split; [exact HK|]); texts. }
    destruct F as (k & tk & t' & HK & ->).
    eapply wp_conseq; [eapply check_type_look with (w := w) (r := tk ++ c_colon :: t' ++ c_rp :: r) (P := fun ty => ty = Named); [exact J|rewrite Hs; texts|exact L|eapply ident_opens; eassumption|]| |auto].
    + intros s' A' R'. eapply look_named with (w := []); [exact HK|constructor|apply A'|exact R'].
    + cbn beta. intros ty s' [-> Q]. split; [discriminate|exact Q].
Qed.
Section Exts.
Variable e : exts.

Lemma tr_main con n c t D x : wide x = false -> tr e (content_tree con n) false false c t D x -> tr e (content_main con n) false false c t D x.
Proof. intros W H. unfold content_main. eapply tr_bind_l; [exact H|rewrite W; apply tr_ret|auto]. Qed.
Lemma trw_main con n c t x : wide x = false -> trw e (content_tree con n) c t x -> trw e (content_main con n) c t x.
Proof. intros W H. unfold content_main. eapply trw_bind_ret; [exact H|]. intros s. now rewrite W. Qed.

(** variants with something in parentheses *)
Lemma tr_variant con c n ti ta x : ident_lit ti n -> ~ In ti keywords -> seen ta -> tr e (con true) false false c (c_lp :: ta ++ [c_rp]) anything x ->
  tr e (content_tree con false) false false c (ti ++ c_lp :: ta ++ [c_rp]) anything (XMap [(XStr n, x)]).
Proof.
  intros HI NK SN H.
  assert (LE : forall r, ident_end (c_lp :: r)) by (intros r; apply (lp_ident_end []); constructor).
  eapply tr_eq with (m' := content_tail con false).
  { intros s r _ Hs. eapply tree_ident; [exact HI|exact NK| |rewrite Hs; rewrite <- app_assoc; reflexivity]. cbn [app]. apply LE. }
  unfold content_tail. refine (tr_bind e _ _ false false false c ti (c_lp :: ta ++ [c_rp]) ident_end anything (Some n) _ _ _ _); [now apply tr_lex, reads_skip_identifier| |intros r _; apply LE].
  cbv iota. eapply tr_bind_r with (D1 := solid); [apply (tr_ws e [] false c l_nil)| |intros r _; apply solid_char; reflexivity || discriminate].
  intros T s r J Hs _ He Hn Hl. unfold content_struct. apply wp_bind.
  eapply wp_conseq with (Q := fun ty s' => ty <> SUnit /\ rest s' = rest s /\ adv T s s') (R := fun _ _ => False); [| |auto].
  - apply (SN T s r J). rewrite Hs. cbn [app]. now rewrite <- app_assoc.
  - cbn beta. intros ty s1 (NS & R1 & A1). destruct (adv_keeps T s s1 A1) as (Q1 & Q2 & Q3).
    assert (W : wp (skip_ws ;;; v <- con true ;; ret (XMap [(XStr n, v)]))
      (fun a' s' => a' = XMap [(XStr n, x)] /\ rest s' = r /\ inv T s' /\ ext s' = e /\ nt s' = false /\ lim s' = lim s) (fun _ _ => False) s1).
    { assert (HT : tr e (skip_ws ;;; v <- con true ;; ret (XMap [(XStr n, v)])) false false c (c_lp :: ta ++ [c_rp]) anything (XMap [(XStr n, x)])).
      { eapply tr_bind_r with (D1 := solid); [apply (tr_ws e [] false c l_nil)| |intros r0 _; apply solid_char; reflexivity || discriminate].
        exact (tr_map e _ (fun v => XMap [(XStr n, v)]) false false c _ _ x H). }
      rewrite <- Q3. apply (HT T s1 r); [apply A1|congruence|exact Logic.I|congruence|congruence|now rewrite Q3]. }
    destruct ty; try exact W. now destruct NS.
Qed.
(** variants without *)
Lemma name_reads con t n T s r K : ident_lit t n -> ~ In t keywords -> remainder K -> K r -> inv T s -> rest s = t ++ r -> ext s = e -> nt s = false ->
  wp (content_tree con false) (fun a' s' => a' = XStr n /\ (K (rest s') /\ suf (rest s') r) /\ inv T s' /\ ext s' = e /\ nt s' = false /\ lim s' = lim s) (fun _ _ => False) s.
Proof.
  intros HI NK HR HK J Hs He Hn. assert (D := remainder_delim K r HR HK).
  eapply wp_eq; [apply (tree_ident con false s t n r); [exact HI|exact NK|now apply delim_ident_end|exact Hs]|].
  unfold content_tail. apply wp_bind.
  eapply wp_reads; [apply (reads_skip_identifier t n HI)|exact J|exact Hs|now apply delim_ident_end|]. intros s1 R1 A1. cbv iota.
  assert (U : forall s2, adv T s s2 -> K (rest s2) /\ suf (rest s2) r -> starts_not (fun d => d =? c_lp) (rest s2) ->
     wp (content_struct con false (Some n)) (fun a' s' => a' = XStr n /\ (K (rest s') /\ suf (rest s') r) /\ inv T s' /\ ext s' = e /\ nt s' = false /\ lim s' = lim s) (fun _ _ => False) s2).
  { intros s2 A2 K2 NL. unfold content_struct. apply wp_bind.
    eapply wp_conseq; [apply (check_type T s2 (fun t => t = SUnit)); [apply A2|]| |auto].
    - unfold check_struct_type_inner. cbn [negb]. apply wp_bind.
      eapply wp_reads; [apply (reads_consume_char_false c_lp)|apply A2|symmetry; apply app_nil_l|exact NL|]. intros s3 R3 A3. cbv iota. now apply wp_ret.
    - cbn beta. intros ty s3 (-> & R3 & A3). apply wp_ret. destruct (adv_keeps T s s3) as (Q1 & Q2 & Q3); [eapply adv_trans; eassumption|].
      split; [reflexivity|]. split; [now rewrite R3|]. split; [apply A3|]. repeat split; congruence. }
  apply wp_bind. destruct HR as [HR|(r0 & C & HR)].
  - eapply wp_conseq; [apply (wp_skip_ws_final T s1 r); [apply A1|now apply HR|assumption]| |auto]. cbn beta. intros [] s2 (R2 & A2).
    apply U; [eapply adv_trans; eassumption| |now rewrite R2]. rewrite R2. split; [apply HR; left; constructor|]. exists r. now rewrite app_nil_r.
  - apply HR in HK. destruct HK as (w & L & ->).
    assert (SO : solid r0) by (destruct r0 as [|c0 r0]; [exact Logic.I|]; apply solid_char; cbn in C; repeat (destruct C as [<-|C]; [reflexivity || discriminate|]); contradiction).
    eapply wp_conseq; [apply (wp_skip_ws T s1 w r0); [apply A1|assumption|assumption|assumption]| |auto]. cbn beta. intros [] s2 (R2 & A2).
    apply U; [eapply adv_trans; eassumption| |]; rewrite R2.
    + split; [apply HR; exists []; split; [constructor|reflexivity]|]. now exists w.
    + destruct r0 as [|c0 r0]; [exact Logic.I|]. cbn in *. lia.
Qed.
Definition both (m : M value) (c : nat) (t : str) (x : value) : Prop := trw e m c t x /\ tr e m false false c t (begins c_rp) x.
Lemma both_delim m c t x : tr e m false false c t delim x -> both m c t x.
Proof. intros H. split; [now apply trw_tr|]. eapply tr_D; [exact H|]. intros r. apply closer_delim. cbn. tauto. Qed.
Lemma both_any m c t x : tr e m false false c t anything x -> both m c t x.
Proof. intros H. apply both_delim. eapply tr_D; [exact H|now intros]. Qed.
Lemma both_main con c t x : wide x = false -> both (content_tree con false) c t x -> both (content_main con false) c t x.
Proof. intros W [H1 H2]. split; [now apply trw_main|now apply tr_main]. Qed.
Lemma both_name con c t n : ident_lit t n -> ~ In t keywords -> both (content_tree con false) c t (XStr n).
Proof.
  intros HI NK. split.
  - intros T s r K HR HK J Hs He Hn Hl. eapply wp_conseq; [apply (name_reads con t n T s r K); assumption| |auto]. cbn beta. intros a s' (-> & [K' _] & H). auto.
  - intros T s r J Hs (r' & ->) He Hn Hl.
    eapply wp_conseq; [apply (name_reads con t n T s (c_rp :: r') (fun q => exists w, layout w /\ q = w ++ c_rp :: r')); try assumption| |auto].
    + right. exists (c_rp :: r'). split; [cbn; tauto|]. reflexivity.
    + exists []. split; [constructor|reflexivity].
    + cbn beta. intros a s' (-> & [(w & _ & RW) (p & SF)] & H). split; [reflexivity|]. split; [|exact H].
      rewrite RW in *. destruct w as [|c0 w]; [reflexivity|]. exfalso. apply (f_equal (@length char)) in SF. rewrite app_length in SF. cbn [app length] in SF. rewrite app_length in SF. cbn [length] in SF. unfold str, char in *. lia.
Qed.

(** ** What is in the parentheses of a variant *)
Section Con.
Variable con : bool -> M value.
Lemma tr_arg_unit c : tr e (content_tree con true) false false c [c_lp; c_rp] anything XUnit.
Proof.
  eapply tr_eq; [|apply (tr_any_unit e (con false) c)]. intros s r _ Hs. apply tree_word. rewrite Hs. intros [_ H]. discriminate H.
Qed.
Lemma tr_arg_one u c x t : crepr u c x t -> tr e (con false) false false c t (begins c_rp) x ->
  tr e (content_tree con true) false false c (c_lp :: t ++ [c_rp]) anything x.
Proof.
  intros HX H. assert (O := fun r => crepr_opens u c x t r HX).
  intros T s r J Hs _ He Hn Hl. assert (Hs' : rest s = c_lp :: t ++ c_rp :: r) by (rewrite Hs; texts).
  eapply wp_eq; [eapply tree_lp; [exact Hs'|]|].
  { apply (lp_not_unit [] (t ++ c_rp :: r)); [constructor|]. right. apply O. }
  unfold content_struct. apply wp_bind.
  eapply wp_conseq; [apply (ptype_look true T s [] (t ++ c_rp :: r) (fun ty => ty = NewtypeTuple) J Hs' l_nil (O _))| |auto].
  - intros s' A' R'. apply (plook_one t T s' r); [eapply crepr_scans; exact HX|eapply crepr_ilead; exact HX|apply A'|exact R'].
  - cbn beta. intros ty s1 (-> & R1 & A1). cbv iota. destruct (adv_keeps T s s1 A1) as (Q1 & Q2 & Q3).
    rewrite Hs' in R1. change (c_lp :: t ++ c_rp :: r) with ([c_lp] ++ t ++ c_rp :: r) in R1.
    apply wp_bind. eapply wp_reads; [apply (reads_consume_char c_lp)|apply A1|exact R1|exact Logic.I|]. intros s2 R2 A2.
    apply wp_bind. eapply wp_reads; [apply (reads_ws []); constructor|apply A2|exact R2|apply ReprFacts.opens_solid, O|]. intros s3 R3 A3.
    destruct (adv_keeps T s s3) as (P1 & P2 & P3); [eapply adv_trans; [exact A1|]; eapply adv_trans; eassumption|].
    apply wp_try. eapply wp_conseq; [apply (H T s3 (c_rp :: r)); [apply A3|exact R3|now exists r|congruence|congruence|now rewrite P3]| |cbn beta; contradiction].
    cbn beta. intros a s4 (-> & R4 & J4 & E4 & N4 & L4).
    assert (HT : tr e (skip_ws ;;; consume_char c_rp ;;; ret x) false false c [c_rp] anything x).
    { eapply tr_bind_r with (D1 := solid); [apply (tr_ws e [] false c l_nil)| |intros r0 _; apply solid_char; reflexivity || discriminate].
      eapply tr_bind_l with (D1 := anything); [apply tr_char|apply tr_ret|now intros]. }
    rewrite <- P3, <- L4. apply (HT T s4 r); [exact J4|exact R4|exact Logic.I|exact E4|exact N4|now rewrite L4, P3].
Qed.
Lemma tr_arg_tuple u c l t w : (2 <= length l)%nat -> layout w -> neat (crepr u c) l t -> items (fun x t => good e (con false) c t x) l t ->
  tr e (content_tree con true) false false (S (S c)) (c_lp :: (w ++ t) ++ [c_rp]) anything (XSeq l).
Proof.
  intros N L H G.
  assert (O : forall r, opens (t ++ r)).
  { intros r. destruct H as [|a ta w1 H W1|a ta w1 l ts H L1 HI]; [cbn in N; lia|..]; rewrite <- app_assoc; eapply crepr_opens; eassumption. }
  intros T s r J Hs _ He Hn Hl. assert (Hs' : rest s = c_lp :: w ++ t ++ c_rp :: r) by (rewrite Hs; texts).
  eapply wp_eq; [eapply tree_lp; [exact Hs'|]|].
  { apply lp_not_unit; [exact L|]. right. apply O. }
  unfold content_struct. apply wp_bind.
  eapply wp_conseq; [apply (ptype_look true T s w (t ++ c_rp :: r) (fun ty => ty = NonNewtypeTuple) J Hs' L (O _))| |auto].
  - intros s' A' R'. destruct H as [|a ta w1 H W1|a ta w1 l ts H L1 HI]; [cbn in N; lia|cbn in N; lia|].
    apply (plook_many ta T s' w1 (ts ++ c_rp :: r)); [eapply crepr_scans; exact H|eapply crepr_ilead; exact H|exact L1| |apply A'|rewrite R'; texts].
    destruct HI as [|a2 ta2 w2 H2 W2|a2 ta2 w2 l ts H2 L2 HI]; [cbn in N; lia|..]; rewrite <- app_assoc; eapply crepr_opens; eassumption.
  - cbn beta. intros ty s1 (-> & R1 & A1). cbv iota. destruct (adv_keeps T s s1 A1) as (Q1 & Q2 & Q3).
    assert (HT : tr e (de_tuple (l <- seq_all c_rp (con false) ;; ret (XSeq l))) false false (S (S c)) (parens false ((w ++ t) ++ [])) (after_parens false) (XSeq l)).
    { eapply tr_de_tuple with (D := begins c_rp); [|constructor|auto].
      eapply tr_map with (f := XSeq). apply tr_seq_all; [cbn; tauto|exact G|exact L]. }
    rewrite <- Q3. apply (HT T s1 r); [apply A1|rewrite R1, Hs; cbn [parens]; rewrite app_nil_r; texts|exact Logic.I|congruence|congruence|rewrite Q3; assumption].
Qed.
Lemma neat_first {V} (R : V -> str -> Prop) fs t : fs <> [] -> neat (neat_entry field_key_text R) fs t -> exists k tk t', ident_lit tk k /\ t = tk ++ c_colon :: t'.
Proof.
  intros N H. destruct H as [|a ta w1 H W1|a ta w1 l ts H L1 HI]; [congruence|..]; destruct H as [k tk v tv w3 HK L3 HV]; exists k, tk; eexists; (split; [exact HK|]); texts.
Qed.
Definition key : M value := k <- de_identifier ;; ret (XStr k).
Lemma tr_arg_struct u c fs t w : fs <> [] -> layout w -> neat (neat_entry field_key_text (crepr u c)) fs t -> items (good_entry e key (con false) c) (map as_entry fs) t ->
  tr e (content_tree con true) false false (S (S c)) (c_lp :: (w ++ t) ++ [c_rp]) anything (XMap (map as_entry fs)).
Proof.
  intros N L H G. destruct (neat_first _ fs t N H) as (k & tk & t' & HK & EQ).
  assert (O : forall r, opens (t ++ r)) by (intros r; rewrite EQ, <- app_assoc; eapply ident_opens; eassumption).
  intros T s r J Hs _ He Hn Hl. assert (Hs' : rest s = c_lp :: w ++ t ++ c_rp :: r) by (rewrite Hs; texts).
  eapply wp_eq; [eapply tree_lp; [exact Hs'|]|].
  { apply lp_not_unit; [exact L|]. right. apply O. }
  unfold content_struct. apply wp_bind.
  eapply wp_conseq; [apply (ptype_look true T s w (t ++ c_rp :: r) (fun ty => ty = Named) J Hs' L (O _))| |auto].
  - intros s' A' R'. apply (plook_named tk k T s' (t' ++ c_rp :: r)); [exact HK|apply A'|rewrite R', EQ; texts].
  - cbn beta. intros ty s1 (-> & R1 & A1). cbv iota. destruct (adv_keeps T s s1 A1) as (Q1 & Q2 & Q3).
    assert (HT : tr e (struct_after_name [] (l <- map_all c_rp key (con false) ;; ret (XMap l))) false false (S (S c))
       (parens false ((w ++ t) ++ [])) (after_parens false) (XMap (map as_entry fs))).
    { eapply tr_struct_after_name with (D := begins c_rp); [|constructor|auto].
      eapply tr_map with (f := XMap). apply tr_map_all; [cbn; tauto|exact G|exact L]. }
    rewrite <- Q3. apply (HT T s1 r); [apply A1|rewrite R1, Hs; cbn [parens]; rewrite app_nil_r; texts|exact Logic.I|congruence|congruence|rewrite Q3; assumption].
Qed.
End Con.

(** ** Behind the parenthesis of a Some, with unwrap_variant_newtypes *)
Section Some.
Variable f : nat.
Let con := de_content f.
Lemma some_not_unit T s t (Q : value -> st -> Prop) k : inv T s -> nt s = true -> opens (rest s) ->
  wp (check_struct_type false true) (fun ty s' => ty = t /\ rest s' = rest s /\ adv T s s') (fun _ _ => False) s ->
  k = match t with
          | Named => struct_after_name [] (l <- map_all c_rp key (con false) ;; ret (XMap l))
          | EmptyTuple | NonNewtypeTuple => de_tuple (l <- seq_all c_rp (con false) ;; ret (XSeq l))
          | _ => modify (set_nt false) ;;; content_main con false
          end ->
  (forall s', rest s' = rest s -> adv T s s' -> wp k Q (fun _ _ => False) s') ->
  wp (de_content (S f) false) Q (fun _ _ => False) s.
Proof.
  intros J Hn O W -> H. cbn [de_content]. apply wp_bind, wp_get. rewrite Hn. cbv iota.
  assert (NR := opens_not_closer c_rp _ ltac:(cbn; tauto) O).
  eapply wp_bind_ok with (a := false) (s' := s). { clear - NR. unfold check_char. destruct (rest s) as [|c0 q]; [reflexivity|]. cbn in NR. now rewrite NR. }
  cbv iota. apply wp_bind. eapply wp_conseq; [exact W| |auto]. cbn beta. intros ty s1 (-> & R1 & A1). specialize (H s1 R1 A1). destruct t; exact H.
Qed.
Lemma tr_some_unit c : tr e (de_content (S f) false) true false c [] (begins c_rp) XUnit.
Proof.
  intros T s r J Hs (r' & ->) He Hn Hl. cbn [de_content]. apply wp_bind, wp_get. rewrite Hn. cbv iota.
  eapply wp_bind_ok; [unfold check_char; rewrite Hs; reflexivity|]. cbn [app N.eqb Pos.eqb].
  unfold de_unit. apply wp_bind, wp_bind, wp_get. rewrite Hn. cbv iota. apply wp_bind, wp_ret. apply wp_modify, wp_ret. repeat split; auto; apply J.
Qed.
Lemma tr_some_one u c x t : crepr u c x t -> tr e (content_main con false) false false c t (begins c_rp) x ->
  tr e (de_content (S f) false) true false c t (begins c_rp) x.
Proof.
  intros HX H T s r J Hs (r' & ->) He Hn Hl. assert (O := crepr_opens u c x t (c_rp :: r') HX).
  eapply some_not_unit with (t := NewtypeTuple); [exact J|exact Hn|now rewrite Hs| |reflexivity|].
  - apply (ptype_look false T s [] (t ++ c_rp :: r') (fun ty => ty = NewtypeTuple) J Hs l_nil O).
    intros s' A' R'. apply (plook_one t T s' r'); [eapply crepr_scans; exact HX|eapply crepr_ilead; exact HX|apply A'|exact R'].
  - cbv iota. intros s1 R1 A1. destruct (adv_keeps T s s1 A1) as (Q1 & Q2 & Q3).
    apply wp_bind, wp_modify. eapply wp_conseq; [apply (H T (set_nt false s1) (c_rp :: r')); [apply A1|transitivity (rest s); [exact R1|exact Hs]|now exists r'|cbn; congruence|reflexivity|cbn; now rewrite Q3]| |auto].
    cbn beta. intros a s2 (-> & R2 & J2 & E2 & N2 & L2). split; [reflexivity|]. split; [exact R2|]. split; [exact J2|]. split; [exact E2|]. split; [exact N2|]. cbn in L2. congruence.
Qed.
Lemma tr_some_tuple u c l t : (2 <= length l)%nat -> neat (crepr u c) l t -> items (fun x t => good e (con false) c t x) l t ->
  tr e (de_content (S f) false) true false (S (S c)) t (begins c_rp) (XSeq l).
Proof.
  intros N H G T s r J Hs (r' & ->) He Hn Hl.
  assert (O : forall r, opens (t ++ r)).
  { intros r. destruct H as [|a ta w1 H W1|a ta w1 l ts H L1 HI]; [cbn in N; lia|..]; rewrite <- app_assoc; eapply crepr_opens; eassumption. }
  eapply some_not_unit with (t := NonNewtypeTuple); [exact J|exact Hn|now rewrite Hs| |reflexivity|].
  - apply (ptype_look false T s [] (t ++ c_rp :: r') (fun ty => ty = NonNewtypeTuple) J Hs l_nil (O _)).
    intros s' A' R'. destruct H as [|a ta w1 H W1|a ta w1 l ts H L1 HI]; [cbn in N; lia|cbn in N; lia|].
    apply (plook_many ta T s' w1 (ts ++ c_rp :: r')); [eapply crepr_scans; exact H|eapply crepr_ilead; exact H|exact L1| |apply A'|rewrite R'; texts].
    destruct HI as [|a2 ta2 w2 H2 W2|a2 ta2 w2 l ts H2 L2 HI]; [cbn in N; lia|..]; rewrite <- app_assoc; eapply crepr_opens; eassumption.
  - cbv iota. intros s1 R1 A1. destruct (adv_keeps T s s1 A1) as (Q1 & Q2 & Q3).
    assert (HT : tr e (de_tuple (l <- seq_all c_rp (con false) ;; ret (XSeq l))) true false (S (S c)) (parens true (([] ++ t) ++ [])) (after_parens true) (XSeq l)).
    { eapply tr_de_tuple with (D := begins c_rp); [|constructor|auto].
      eapply tr_map with (f := XSeq). apply tr_seq_all; [cbn; tauto|exact G|constructor]. }
    rewrite <- Q3. apply (HT T s1 (c_rp :: r')); [apply A1|rewrite R1, Hs; cbn [parens app]; now rewrite app_nil_r|now exists r'|congruence|congruence|rewrite Q3; assumption].
Qed.
Lemma tr_some_struct u c fs t : fs <> [] -> neat (neat_entry field_key_text (crepr u c)) fs t -> items (good_entry e key (con false) c) (map as_entry fs) t ->
  tr e (de_content (S f) false) true false (S (S c)) t (begins c_rp) (XMap (map as_entry fs)).
Proof.
  intros N H G T s r J Hs (r' & ->) He Hn Hl. destruct (neat_first _ fs t N H) as (k & tk & t' & HK & EQ).
  assert (O : forall r, opens (t ++ r)) by (intros r; rewrite EQ, <- app_assoc; eapply ident_opens; eassumption).
  eapply some_not_unit with (t := Named); [exact J|exact Hn|now rewrite Hs| |reflexivity|].
  - apply (ptype_look false T s [] (t ++ c_rp :: r') (fun ty => ty = Named) J Hs l_nil (O _)).
    intros s' A' R'. apply (plook_named tk k T s' (t' ++ c_rp :: r')); [exact HK|apply A'|rewrite R', EQ; texts].
  - cbv iota. intros s1 R1 A1. destruct (adv_keeps T s s1 A1) as (Q1 & Q2 & Q3).
    assert (HT : tr e (struct_after_name [] (l <- map_all c_rp key (con false) ;; ret (XMap l))) true false (S (S c))
       (parens true (([] ++ t) ++ [])) (after_parens true) (XMap (map as_entry fs))).
    { eapply tr_struct_after_name with (D := begins c_rp); [|constructor|auto].
      eapply tr_map with (f := XMap). apply tr_map_all; [cbn; tauto|exact G|constructor]. }
    rewrite <- Q3. apply (HT T s1 (c_rp :: r')); [apply A1|rewrite R1, Hs; cbn [parens app]; now rewrite app_nil_r|now exists r'|congruence|congruence|rewrite Q3; assumption].
Qed.
End Some.
Lemma tr_some_layout any c w t x : x_unwrap_variant_newtypes e = true -> layout w -> tr e any true false c t (begins c_rp) x ->
  (forall r, solid (t ++ c_rp :: r)) ->
  tr e (any_main any) false false (S c) (s_Some ++ c_lp :: (w ++ t) ++ [c_rp]) anything (XSome x).
Proof.
  intros UV LW G SO.
  assert (LX : forall r, starts_not xid_continue (c_lp :: r)) by (intros r; apply ident_end_xid, (lp_ident_end []); constructor).
  eapply tr_eq; [intros s r _ Hs; eapply any_main_Some; [rewrite Hs; rewrite <- app_assoc; reflexivity|]|].
  { cbn [app]. apply LX. }
  unfold de_option.
  eapply tr_bind_r with (D1 := fun r => ident_at s_None r = false); [apply tr_lex, reads_consume_ident_false| |reflexivity].
  cbv iota. refine (tr_bind e _ _ false false false (S c) s_Some _ (starts_not xid_continue) anything true _ _ _ _); [apply tr_lex, reads_consume_ident| |].
  2: { intros r _. cbn [app]. apply LX. }
  cbv iota. eapply tr_text with (t := [c_lp] ++ w ++ t ++ [c_rp]); [|cbn [app]; now rewrite <- app_assoc].
  refine (tr_bind e _ _ false false false (S c) [c_lp] _ anything anything true _ _ _ _); [| |now intros].
  { refine (tr_bind e _ _ false false false (S c) [] [c_lp] solid anything tt _ _ _ _); [apply tr_ws; constructor|apply tr_char|intros r _; apply solid_char; reflexivity || discriminate]. }
  cbv iota. refine (tr_bind e _ _ false false false (S c) w _ solid anything tt _ _ _ _); [now apply tr_ws| |].
  2: { intros r _. rewrite <- !app_assoc. apply SO. }
  eapply tr_bind_r with (D1 := anything); [apply tr_nt_ext| |now intros]. rewrite UV.
  refine (tr_bind e _ _ true false false (S c) t [c_rp] (begins c_rp) anything (XSome x) _ _ _ _); [apply tr_guard, tr_map with (f := XSome), G| |intros r _; now exists r].
  eapply tr_bind_r with (D1 := anything); [apply tr_nt| |now intros].
  refine (tr_bind e _ _ false false false (S c) [] [c_rp] (begins c_rp) anything false _ _ _ _); [apply tr_no_comma; [cbn; tauto|constructor]| |intros r _; now exists r].
  eapply tr_bind_l with (D1 := anything); [apply tr_char|apply tr_ret|now intros].
Qed.

(** ** Whole values *)
Let u := x_unwrap_variant_newtypes e.
Definition creads (c : nat) (x : value) (t : str) : Prop :=
  crepr u c x t /\ forall f, (length t <= f)%nat -> both (content_main (de_content f) false) c t x.
Lemma creads_good f c x t : creads c x t -> (length t <= f)%nat -> good e (de_content (S f) false) c t x.
Proof.
  intros [H R] LF. split; [intros r; eapply crepr_opens; exact H|]. intros T s r K HR HK J Hs He Hn Hl.
  eapply wp_eq with (m' := content_main (de_content f) false); [|now apply (proj1 (R f LF) T s r K)]. cbn [de_content]. unfold bind at 1, get. now rewrite Hn.
Qed.
Lemma tr_content n f c t D x : tr e (content_main (de_content f) n) false false c t D x -> tr e (de_content (S f) n) false false c t D x.
Proof.
  intros H T s r J Hs Dr He Hn Hl. eapply wp_eq with (m' := content_main (de_content f) n); [|now apply (H T s r)].
  cbn [de_content]. unfold bind at 1, get. now rewrite Hn.
Qed.
Lemma creads_items f c l t : neat (creads c) l t -> (length t < f)%nat -> items (fun x t => good e (de_content f false) c t x) l t.
Proof.
  intros H LF. destruct f as [|f]; [lia|]. eapply items_within with (N := f); [apply neat_items; exact H|lia|].
  intros x tx _ RD LX. now apply creads_good.
Qed.
Lemma creads_leads f c l t : neat (creads c) l t -> (length t < f)%nat -> items (fun x t => lead t /\ good e (de_content f false) c t x) l t.
Proof.
  intros H LF. destruct f as [|f]; [lia|]. eapply items_within with (N := f); [apply neat_items; exact H|lia|].
  intros x tx _ RD LX. split; [eapply ilead_lead, crepr_ilead; apply RD|now apply creads_good].
Qed.
Lemma creads_entries f c es t : neat (neat_entry (creads c) (creads c)) es t -> (length t < f)%nat ->
  items (good_entry e (de_content f false) (de_content f false) c) es t.
Proof.
  intros HI LF. destruct f as [|f]; [lia|]. eapply items_within with (N := f); [apply neat_items; exact HI|lia|].
  intros [k v] tx IN H LX.
  inversion H as [k' tk v' tv w RK L RV]; subst k' v' tx. repeat (rewrite app_length in LX; cbn [length] in LX).
  assert (GK : good e (de_content (S f) false) c tk k) by (apply creads_good; [exact RK|unfold str, char in *; lia]).
  assert (GV : good e (de_content (S f) false) c tv v) by (apply creads_good; [exact RV|unfold str, char in *; lia]).
  exact (en _ _ k tk v tv [] w GK l_nil L GV).
Qed.
Lemma creads_fields f c fs t : neat (neat_entry field_key_text (creads c)) fs t -> (length t < f)%nat ->
  items (entry field_key_text (fun x t => good e (de_content f false) c t x)) fs t.
Proof.
  intros HI LF. destruct f as [|f]; [lia|]. eapply items_within with (N := f); [apply neat_items; exact HI|lia|].
  intros [k v] tx IN H LX.
  inversion H as [k' tk v' tv w RK L RV]; subst k' v' tx. repeat (rewrite app_length in LX; cbn [length] in LX).
  assert (GV : good e (de_content (S f) false) c tv v) by (apply creads_good; [exact RV|unfold str, char in *; lia]).
  exact (en _ _ k tk v tv [] w RK l_nil L GV).
Qed.
Lemma fields_entries con c fs t : items (entry field_key_text (fun x t => good e con c t x)) fs t -> items (good_entry e key con c) (map as_entry fs) t.
Proof. intros HI. eapply items_map; [|exact HI]. intros [k v] t0 H. inversion H; subst. cbn. constructor; auto. now apply good_ident. Qed.
Lemma neat_creads c l t : neat (creads c) l t -> neat (crepr u c) l t.
Proof. apply neat_mono. now intros x tx []. Qed.
Lemma fields_creads c fs t : neat (neat_entry field_key_text (creads c)) fs t -> neat (neat_entry field_key_text (crepr u c)) fs t.
Proof. apply neat_mono, neat_entry_mono; [auto|]. now intros x tx []. Qed.
Lemma carg_creads c x t : carg creads c x t -> carg (crepr u) c x t.
Proof. apply carg_mono. now intros c' x' t' []. Qed.

Lemma arg_reads c x t f : carg creads c x t -> (length t + 2 <= f)%nat -> tr e (content_main (de_content f) true) false false c (c_lp :: t ++ [c_rp]) anything x.
Proof.
  intros H LF. assert (H' := carg_creads c x t H). apply tr_main; [eapply carg_narrow; exact H'|]. clear H'.
  destruct H as [c|c x t [H R]|c l t w N L H|c fs t w N L H]; (destruct f as [|f]; [lia|]).
  - apply tr_arg_unit.
  - eapply tr_arg_one; [exact H|]. apply tr_content. apply R. lia.
  - rewrite app_length in LF. eapply tr_arg_tuple; [exact N|exact L|apply neat_creads; exact H|]. apply creads_items; [exact H|unfold str, char in *; lia].
  - rewrite app_length in LF. eapply tr_arg_struct; [exact N|exact L|apply fields_creads; exact H|]. apply fields_entries, creads_fields; [exact H|unfold str, char in *; lia].
Qed.
Lemma some_reads c x t f : u = true -> carg creads c x t -> (length t + 2 <= f)%nat -> tr e (any_main (de_content f false)) false false (S c) (s_Some ++ c_lp :: t ++ [c_rp]) anything (XSome x).
Proof.
  intros UV H LF.
  destruct H as [c|c x t [H R]|c l t w N L H|c fs t w N L H]; (destruct f as [|f]; [lia|]).
  - apply (tr_some_layout (de_content (S f) false) c [] [] XUnit UV l_nil); [apply tr_some_unit|intros r; apply solid_char; reflexivity || discriminate].
  - apply (tr_some_layout (de_content (S f) false) c [] t x UV l_nil); [|intros r; eapply ReprFacts.opens_solid, crepr_opens; exact H].
    eapply tr_some_one; [exact H|]. apply R. lia.
  - rewrite app_length in LF. assert (H' := neat_creads c l t H). apply (tr_some_layout (de_content (S f) false) (S (S c)) w t (XSeq l) UV L).
    + destruct f as [|f]; [lia|].
      eapply tr_some_tuple; [exact N|exact H'|]. apply creads_items; [exact H|unfold str, char in *; lia].
    + intros r. destruct H' as [|? ? ? HA _|? ? ? ? ? HA _ _]; [cbn in N; lia|..]; rewrite <- app_assoc; eapply ReprFacts.opens_solid, crepr_opens; exact HA.
  - rewrite app_length in LF. assert (H' := fields_creads c fs t H). destruct (neat_first _ fs t N H') as (k & tk & t' & HK & EQ).
    apply (tr_some_layout (de_content (S f) false) (S (S c)) w t (XMap (map as_entry fs)) UV L).
    + destruct f as [|f]; [lia|].
      eapply tr_some_struct; [exact N|exact H'|]. apply fields_entries, creads_fields; [exact H|unfold str, char in *; lia].
    + intros r. rewrite EQ, <- app_assoc. eapply ReprFacts.opens_solid, ident_opens; exact HK.
Qed.
Lemma tree_words con n t x c : (forall s r, delim r -> rest s = t ++ r -> ~ (no_word (rest s) /\ starts_with s_unit (rest s) = false)) ->
  tr e (any_main (con false)) false false c t delim x -> tr e (content_tree con n) false false c t delim x.
Proof. intros H. apply tr_eq. intros s r D Hs. eapply tree_word, H; eassumption. Qed.
Lemma word_there w t s r : In w keywords -> t = w -> delim r -> rest s = t ++ r -> ~ (no_word (rest s) /\ starts_with s_unit (rest s) = false).
Proof. intros IN -> D Hs [NW _]. specialize (NW w IN). rewrite Hs, ident_at_app in NW; [discriminate|now apply delim_xid]. Qed.
Lemma tree_heads con n t x c : noid t -> (forall r, opens (t ++ r)) -> (forall t', t <> c_lp :: t') ->
  tr e (any_main (con false)) false false c t delim x -> tr e (content_tree con n) false false c t delim x.
Proof.
  intros NI O NL. apply tr_eq. intros s r _ Hs. destruct t as [|a t].
  - exfalso. exact (O []).
  - eapply tree_head; [exact NI| |exact Hs]. intros ->. now apply (NL t).
Qed.
Lemma lp_reads f c t x : starts_with s_unit (c_lp :: t) = false -> t <> [] -> tr e (any_struct (de_content f false)) false false c (c_lp :: t) anything x ->
  tr e (content_tree (de_content f) false) false false c (c_lp :: t) anything x.
Proof.
  intros SU NE. apply tr_eq. intros s r _ Hs. cbn [app] in Hs. rewrite <- struct_any. eapply tree_lp; [exact Hs|].
  destruct t as [|b t]; [congruence|]. unfold starts_with in *. change s_unit with [c_lp; c_rp] in *. cbn [strip_prefix app] in *.
  destruct (c_lp =? c_lp); [|reflexivity]. now destruct (c_rp =? b).
Qed.
Lemma range_lit_head x t : range_lit x t -> (exists c t', t = c :: t' /\ (c = c_plus \/ c = c_minus \/ c = c_dot \/ is_digit c = true)) \/
  exists w v t', In (w, v) float_words /\ t = w ++ c_dot :: t'.
Proof.
  assert (H : forall n t u, num_text n t -> (exists c t', t ++ c_dot :: u = c :: t' /\ (c = c_plus \/ c = c_minus \/ c = c_dot \/ is_digit c = true)) \/
    exists w v t', In (w, v) float_words /\ t ++ c_dot :: u = w ++ c_dot :: t').
  { intros n t0 v HN. destruct (num_text_head n t0 HN) as [(a & t' & -> & HC)|HI]; [left; cbn [app]; exists a, (t' ++ c_dot :: v); split; [reflexivity|tauto]|right; eauto 10]. }
  destruct 1 as [a b ta tb HA HB _|a b ta tb HA HB|a ta HA|b tb _ _|b tb _|]; try (eapply H; eassumption); left; cbn [app]; eexists _, _; (split; [reflexivity|tauto]).
Qed.
Fixpoint crepr_reads c x t (H : crepr u c x t) {struct H} : creads c x t.
Proof.
  assert (O := fun r => crepr_opens u c x t r H). assert (W := crepr_narrow u c x t H).
  split; [exact H|]. intros f LF. apply both_main; [exact W|]. clear W.
  destruct H as [c b|c n t H NW|c x t H NW|c x t H|c s t H|c b t H|c|c|c n t H NK|c n ti x t HI NK H|c x t UV H|c x t UV H|c l t w L H|c es t w L H|c l t w N L H|c fs t w N L H].
  - apply both_delim, tree_words; [|apply tr_any_bool]. intros s r. apply word_there with (w := if b then s_true else s_false); [destruct b; cbn; tauto|reflexivity].
  - apply both_delim. destruct (num_text_head n t H) as [(a & t' & -> & HC)|HI].
    + apply tree_heads; [|exact O| |now apply tr_any_number].
      * apply noid_head; [apply not_first; unfold is_alpha, is_digit in *; lia|unfold is_digit in HC; lia].
      * intros t0 [= -> _]. unfold is_digit in HC. lia.
    + apply tree_words; [|now apply tr_any_number]. intros s r. apply word_there with (w := t); [|reflexivity].
      cbn in *. repeat (destruct HI as [HI|HI]; [injection HI as <- _; tauto|]). contradiction.
  - apply both_delim. destruct (range_lit_head x t H) as [(a & t' & -> & HC)|(w & v & t' & HI & ->)].
    + apply tree_heads; [|exact O| |now apply tr_any_range].
      * apply noid_head; [apply not_first; unfold is_alpha, is_digit in *; lia|unfold is_digit in HC; lia].
      * intros t0 [= -> _]. unfold is_digit in HC. lia.
    + apply tree_words; [|now apply tr_any_range]. intros s r D Hs [NW' _]. specialize (NW' w). rewrite Hs, <- app_assoc, ident_at_app in NW'; [discriminate NW'|cbn [app starts_not]; rewrite xid_continue_ascii; reflexivity].
      cbn in *. repeat (destruct HI as [HI|HI]; [injection HI as <- _; tauto|]). contradiction.
  - apply both_delim, tree_heads; [eapply noid_char; eassumption|exact O|destruct H; discriminate|]. eapply tr_D; [now apply tr_any_char|now intros].
  - apply both_delim, tree_heads; [eapply noid_str; eassumption|exact O|destruct H; discriminate|]. eapply tr_D; [now apply tr_any_string|now intros].
  - apply both_delim, tree_heads; [eapply noid_bytes; eassumption|exact O|destruct H; discriminate|]. eapply tr_D; [now apply tr_any_bytes|now intros].
  - apply both_delim, tree_words; [|eapply tr_D; [apply tr_any_unit|now intros]]. intros s r _ Hs [_ F]. rewrite Hs in F. discriminate F.
  - apply both_delim, tree_words; [|apply tr_any_None]. intros s r. apply word_there with (w := s_None); [cbn; tauto|reflexivity].
  - now apply both_name.
  - assert (HC : carg creads c x t) by exact (carg_mono _ _ crepr_reads c x t H).
    rewrite app_length in LF. cbn [length] in LF. rewrite app_length in LF. cbn [length] in LF.
    apply both_any, tr_variant; [exact HI|exact NK|eapply carg_seen; exact H|]. destruct f as [|f]; [lia|].
    apply tr_content. apply arg_reads; [exact HC|]. destruct (ident_lit_head ti n [] HI) as (c0 & t0 & EQ & _). rewrite app_nil_r in EQ. rewrite EQ in LF. cbn [length] in LF. unfold str, char in *. lia.
  - repeat (rewrite app_length in LF; cbn [length] in LF). destruct f as [|f]; [unfold str, char in *; cbn in LF; lia|].
    apply both_delim, tree_words; [intros s r D Hs [NW _]; specialize (NW s_Some); rewrite Hs, <- app_assoc, ident_at_app in NW; [discriminate NW; cbn; tauto|apply ident_end_xid, (lp_ident_end []); constructor]|].
    eapply tr_D with (D := anything); [|now intros]. apply (tr_any_some e UV (de_content (S f) false) c x t [] [] []); [constructor..| |constructor; constructor].
    apply creads_good; [exact (crepr_reads c x t H)|unfold str, char in *; lia].
  - assert (HC : carg creads c x t) by exact (carg_mono _ _ crepr_reads c x t H).
    repeat (rewrite app_length in LF; cbn [length] in LF).
    apply both_delim, tree_words; [intros s r D Hs [NW _]; specialize (NW s_Some); rewrite Hs, <- app_assoc, ident_at_app in NW; [discriminate NW; cbn; tauto|apply ident_end_xid, (lp_ident_end []); constructor]|].
    eapply tr_D with (D := anything); [|now intros]. apply some_reads; [exact UV|exact HC|unfold str, char in *; cbn in LF; lia].
  - assert (HC : neat (creads c) l t) by exact (neat_mono _ _ (crepr_reads c) l t H).
    repeat first [rewrite app_length in LF|progress cbn [length] in LF].
    apply both_delim, tree_heads; [apply noid_head; [now apply not_first|discriminate]|exact O|discriminate|].
    eapply tr_D with (D := anything); [|now intros]. apply tr_any_seq; [exact L|]. apply creads_items; [exact HC|unfold str, char in *; lia].
  - assert (HC : neat (neat_entry (creads c) (creads c)) es t) by exact (neat_mono _ _ (neat_entry_mono _ _ _ _ (crepr_reads c) (crepr_reads c)) es t H).
    repeat first [rewrite app_length in LF|progress cbn [length] in LF].
    apply both_delim, tree_heads; [apply noid_head; [now apply not_first|discriminate]|exact O|discriminate|].
    eapply tr_D with (D := anything); [|now intros]. apply tr_any_map; [exact L|]. apply creads_entries; [exact HC|unfold str, char in *; lia].
  - assert (HC : neat (creads c) l t) by exact (neat_mono _ _ (crepr_reads c) l t H).
    repeat first [rewrite app_length in LF|progress cbn [length] in LF].
    apply both_any, lp_reads; [|destruct w; [destruct t|]; discriminate|].
    + apply lp_not_unit; [exact L|]. right. destruct H as [|? ? ? HA _|? ? ? ? ? HA _ _]; [congruence|..]; rewrite <- app_assoc; eapply crepr_opens; exact HA.
    + apply tr_any_tuple; [exact L|]. apply creads_leads; [exact HC|unfold str, char in *; lia].
  - assert (HC : neat (neat_entry field_key_text (creads c)) fs t) by exact (neat_mono _ _ (neat_entry_mono _ _ _ _ (fun _ _ h => h) (crepr_reads c)) fs t H).
    destruct (neat_first _ fs t N H) as (k & tk & t' & HK & EQ).
    repeat first [rewrite app_length in LF|progress cbn [length] in LF].
    apply both_any, lp_reads; [|destruct w; [destruct t|]; discriminate|].
    + apply lp_not_unit; [exact L|]. right. rewrite EQ, <- app_assoc. eapply ident_opens; exact HK.
    + apply tr_any_named; [exact L|exact N|]. apply creads_fields; [exact HC|unfold str, char in *; lia].
Qed.
End Exts.
End WithEnv.
