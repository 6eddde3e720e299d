(** Reading without a type finds the value that a text denotes. *)
From Coq Require Import String Ascii NArith ZArith Lia Bool List Permutation.
From Coq Require Import ZifyBool ZifyNat ZifyN.
From Verif Require Import Base Facts Value Data Parse De Span Ser Wp EnvOk Layout Lit Attr LexSafe LexWs LexRead DocRead LexDoc Fuel Repr ReprFacts TypedRead.
Import ListNotations.
Open Scope N_scope.
Open Scope list_scope.
Open Scope m_scope.

Section Num.
Context {E : Env} {X : XidOk E} {FO : FloatOk E}.

(** ** Numbers *)

Definition num_head (t : str) : Prop := exists sg neg c t', t = sg ++ c :: t' /\ sign sg neg /\ is_digit c = true.
Lemma num_head_app t r : num_head t -> num_head (t ++ r).
Proof. intros (sg & neg & c & t' & -> & SG & D). exists sg, neg, c, (t' ++ r). repeat split; [texts|auto..]. Qed.
Lemma num_head_ident c w t : is_alpha c = true -> num_head t -> ident_at (c :: w) t = false.
Proof.
  intros A (sg & neg & d & t' & -> & SG & D). unfold ident_at. unfold is_alpha in A. unfold is_digit in D.
  destruct SG; cbn [app strip_prefix]; rewrite (proj2 (N.eqb_neq _ _)) by lia; reflexivity.
Qed.
(** how far a float and an integer would reach *)
Lemma next_is_float_eq sg neg c t s : sign sg neg -> is_digit c = true -> rest s = sg ++ c :: t ->
  next_bytes_is_float s =
  Ok (Nat.ltb (blen (takewhile is_int_char (c :: t)))
              (Nat.min (dotdot_len (takewhile is_float_char (c :: t))) (blen (takewhile is_float_char (c :: t))))) s.
Proof.
  intros SG D Hs. unfold next_bytes_is_float.
  assert (Hp : exists c0 r0, rest s = c0 :: r0 /\ (if (c0 =? c_plus) || (c0 =? c_minus) then 1%nat else 0%nat) = blen sg).
  { rewrite Hs. unfold is_digit in D. destruct SG; cbn [app]; eexists _, _; (split; [reflexivity|]); try reflexivity.
    replace ((c =? c_plus) || (c =? c_minus)) with false by lia. reflexivity. }
  destruct Hp as (c0 & r0 & Hp & SK). unfold bind at 1. unfold peek_char. rewrite Hp. cbv zeta. rewrite SK.
  unfold bind at 1. rewrite (next_while_from_eq is_float_char s sg (c :: t)) by auto. unfold bind at 1, src. rewrite Hs.
  unfold bind at 1. rewrite bdrop_app. unfold bind at 1. cbn [of_slice]. unfold ret at 1. rewrite btake_takewhile. unfold bind at 1. cbn [of_slice]. unfold ret at 1.
  rewrite (next_while_from_eq is_int_char s sg (c :: t)) by auto. reflexivity.
Qed.

(** integers *)
Lemma takewhile_app_all p a r : forallb p a = true -> takewhile p (a ++ r) = a ++ takewhile p r.
Proof. induction a as [|x a IH]; [reflexivity|]. cbn. intros H. apply andb_prop in H as [-> H]. now rewrite IH. Qed.
Lemma int_shape sg neg p base ds z : sign sg neg -> base_prefix p base -> int_number base ds z -> num_head (sg ++ p ++ ds).
Proof.
  intros SG BP N. destruct (int_head _ _ _ N) as (c & d & t & -> & HX & L). destruct BP.
  - exists sg, neg, c, t. repeat split; auto. unfold is_digit. destruct HX; lia.
  - exists sg, neg, 48, (98 :: c :: t). auto.
  - exists sg, neg, 48, (111 :: c :: t). auto.
  - exists sg, neg, 48, (120 :: c :: t). auto.
Qed.
Lemma prefix_not_float sg neg x t s : sign sg neg -> is_float_char x = false -> rest s = sg ++ 48 :: x :: t ->
  next_bytes_is_float s = Ok false s.
Proof.
  intros SG NF Hs. rewrite (next_is_float_eq sg neg 48 (x :: t) s SG eq_refl Hs). f_equal. apply Nat.ltb_ge.
  etransitivity; [apply Nat.le_min_r|]. cbn [takewhile]. rewrite NF. cbn. lia.
Qed.
Lemma int_not_float sg neg p base ds z r s : sign sg neg -> base_prefix p base -> int_number base ds z ->
  rest s = sg ++ p ++ ds ++ r -> float_end r \/ (exists k r', r = ik_suffix k ++ r') ->
  next_bytes_is_float s = Ok false s.
Proof.
  intros SG BP N Hs HR.
  assert (F := N). apply int_number_fold in F as (F & _ & _). destruct (int_head _ _ _ N) as (c & d & t & -> & HX & L).
  destruct BP; cbn [app] in Hs.
  2: { change (s_0b ++ c :: t ++ r) with (48 :: 98 :: c :: t ++ r) in Hs. apply (prefix_not_float sg neg 98 (c :: t ++ r) s SG eq_refl Hs). }
  2: { change (s_0o ++ c :: t ++ r) with (48 :: 111 :: c :: t ++ r) in Hs. apply (prefix_not_float sg neg 111 (c :: t ++ r) s SG eq_refl Hs). }
  2: { change (s_0x ++ c :: t ++ r) with (48 :: 120 :: c :: t ++ r) in Hs. apply (prefix_not_float sg neg 120 (c :: t ++ r) s SG eq_refl Hs). }
  assert (DG : is_digit c = true) by (unfold is_digit; destruct HX; lia).
  rewrite (next_is_float_eq sg neg c (t ++ r) s SG DG Hs). f_equal. apply Nat.ltb_ge.
  change (c :: t ++ r) with ((c :: t) ++ r).
  assert (F1 : forallb is_float_char (c :: t) = true).
  { eapply Forall_forallb; [|exact F]. intros x [->|(dx & HD & LD)]; [reflexivity|]. unfold is_float_char, is_digit. destruct HD; lia. }
  assert (F2 : forallb is_int_char (c :: t) = true).
  { eapply Forall_forallb; [|exact F]. apply int_digit_char. }
  assert (F3 : forallb nodot (c :: t) = true).
  { eapply Forall_forallb; [|exact F]. unfold nodot. intros x [->|(dx & HD & LD)]; [reflexivity|]. destruct HD; lia. }
  assert (IL : (blen (c :: t) <= blen (takewhile is_int_char ((c :: t) ++ r)))%nat).
  { rewrite takewhile_app_all by exact F2. rewrite blen_app. lia. }
  destruct HR as [FE|(k & r' & ->)].
  - rewrite (dotsafe_end (c :: t) r) by (auto using dotsafe_nodot). lia.
  - rewrite (takewhile_app is_float_char (c :: t)) by (auto; destruct k; reflexivity). lia.
Qed.

(** floats *)
Lemma pointed_shape t : pointed t -> float_shape t.
Proof.
  intros [sg neg ds fs ex SG N1 F1 N2 F2 EX]. apply numeral_shape. apply (nm sg neg ds (c_dot :: fs) ex); auto. now constructor.
Qed.
Lemma pointed_float t r s : pointed t -> rest s = t ++ r -> float_end r \/ (exists k r', r = fk_suffix k ++ r') ->
  next_bytes_is_float s = Ok true s.
Proof.
  intros HP Hs HR. assert (SH := pointed_shape t HP). destruct HP as [sg neg ds fs ex SG N1 F1 N2 F2 EX].
  destruct ds as [|c ds]; [contradiction|]. cbn [forallb] in F1. apply andb_prop in F1 as [DC F1].
  set (t := c_dot :: fs ++ ex) in *.
  assert (Hs' : rest s = sg ++ c :: (ds ++ t ++ r)) by (rewrite Hs; texts).
  rewrite (next_is_float_eq sg neg c _ s SG DC Hs'). f_equal. apply Nat.ltb_lt.
  assert (NI : takewhile is_int_char (c :: ds ++ t ++ r) = c :: ds).
  { change (c :: ds ++ t ++ r) with ((c :: ds) ++ t ++ r). apply takewhile_app; [|reflexivity].
    cbn [forallb]. rewrite andb_true_iff. split; [unfold is_int_char, is_hexdigit; now rewrite DC|].
    eapply forallb_weaken; [|exact F1]. intros x Hx. unfold is_int_char, is_hexdigit. now rewrite Hx. }
  rewrite NI. set (b := (c :: ds) ++ t).
  assert (FB : forallb is_float_char b = true /\ dotsafe b).
  { destruct SH as [CH DS _]. split.
    - eapply forallb_weaken; [|clear DS; rewrite forallb_app in CH; apply andb_prop in CH as [_ CH]; exact CH].
      intros x Hx. now apply andb_prop in Hx.
    - intros p q Eq. apply (DS (sg ++ p) q). transitivity (sg ++ b); [reflexivity|]. rewrite Eq. texts. }
  destruct FB as [FB DB].
  assert (DL : dotdot_len (takewhile is_float_char (b ++ r)) = blen b /\ (blen b <= blen (takewhile is_float_char (b ++ r)))%nat).
  { destruct HR as [FE|(k & r' & ->)].
    - split; [now apply dotsafe_end|]. rewrite takewhile_app_all by assumption. rewrite blen_app. lia.
    - rewrite takewhile_app by (auto; destruct k; reflexivity). split; [now apply dotsafe_len|lia]. }
  replace (c :: ds ++ t ++ r) with (b ++ r) by (subst b; texts).
  destruct DL as [-> DL]. rewrite Nat.min_l by assumption. subst b. rewrite blen_app. subst t. cbn [blen]. assert (PP := len_utf8_pos c_dot). lia.
Qed.
Lemma least_kind_range neg z k : least_kind neg z = Some k ->
  in_range (int_target None neg) z = true /\ int_result None neg z = (k, z).
Proof.
  unfold least_kind, int_kinds, int_target, int_result, narrow_signed, narrow_unsigned, large_sint, large_uint.
  assert (M1 : forall a b, in_range a z = true -> (ik_min b <= ik_min a)%Z -> (ik_max a <= ik_max b)%Z -> in_range b z = true).
  { unfold in_range. intros a b. lia. }
  destruct neg; unfold filter, int_supported; destruct int128; cbn [find orb negb is_128]; intros H;
    repeat match type of H with (if in_range ?a z then _ else _) = _ => destruct (in_range a z) eqn:?; [injection H as <-|] end;
    try discriminate; (split; [|reflexivity]); try reflexivity; try assumption; (eapply M1; [eassumption|reflexivity|reflexivity]) || (eapply M1; [eassumption|discriminate|discriminate]).
Qed.

(** any_number after the special words *)
Definition number_core : M num :=
  isf <- next_bytes_is_float ;;
  if isf then (x <- float None ;; ret (num_of_float x))
  else
    backup <- get_cursor_m ;;
    try (integer None)
      (fun x => ret (num_of_int x))
      (fun ierr =>
         icur <- get_cursor_m ;;
         set_cursor_m backup ;;;
         let giveup := set_cursor_m icur ;;; fail ierr in
         try (float None)
           (fun x =>
              r <- src ;;
              if Nat.leb (blen r) (blen (fst (fst icur)))
              then ret (num_of_float x) else giveup)
           (fun _ => giveup)).
Lemma starts_not_ident_at c w p r : p c = true -> starts_not p r -> ident_at (c :: w) r = false.
Proof.
  unfold ident_at. intros P. destruct r as [|d r]; [reflexivity|]. cbn. destruct (c =? d) eqn:EQ; [|reflexivity].
  apply N.eqb_eq in EQ as <-. intros H. congruence.
Qed.
Definition wordless (r : str) : Prop := starts_not (fun c => (c =? 105) || (c =? 78)) r.
Lemma any_number_core s : wordless (rest s) -> any_number s = number_core s.
Proof.
  intros W. unfold any_number.
  do 6 (unfold bind at 1; rewrite consume_ident_false by (eapply starts_not_ident_at; [|exact W]; reflexivity)). reflexivity.
Qed.
Lemma num_head_wordless t : num_head t -> wordless t.
Proof.
  intros (sg & neg & d & t' & -> & SG & D). unfold is_digit in D. destruct SG; cbn; try reflexivity. lia.
Qed.
Lemma wp_eq {A} (m m' : M A) Q R s : m s = m' s -> wp m' Q R s -> wp m Q R s.
Proof. Transparent wp. unfold wp. Opaque wp. now intros ->. Qed.
Lemma reads_core t (D : str -> Prop) n : (forall r, D r -> wordless (t ++ r)) -> reads number_core t D n -> reads any_number t D n.
Proof.
  intros W H T s r J Hs Dr. eapply wp_eq; [apply any_number_core; rewrite Hs; now apply W|]. now apply (H T s r).
Qed.
Lemma reads_core_int t (D : str -> Prop) k z : (forall r s, D r -> rest s = t ++ r -> next_bytes_is_float s = Ok false s) ->
  reads (integer None) t D (k, z) -> reads number_core t D (NInt k z).
Proof.
  intros NF H T s r J Hs Dr. unfold number_core. eapply wp_bind_ok; [eapply NF; eassumption|]. cbv iota.
  eapply wp_bind_ok; [reflexivity|]. apply wp_try. eapply wp_conseq; [apply (H T s r J Hs Dr)| |intros ? ? []]. cbn beta.
  intros a s' (-> & P). apply wp_ret. auto.
Qed.
Lemma reads_core_float t (D : str -> Prop) k b : (forall r s, D r -> rest s = t ++ r -> next_bytes_is_float s = Ok true s) ->
  reads (float None) t D (k, b) -> reads number_core t D (NFloat k b).
Proof.
  intros NF H T s r J Hs Dr. unfold number_core. eapply wp_bind_ok; [eapply NF; eassumption|]. cbv iota.
  apply wp_bind. eapply wp_conseq; [apply (H T s r J Hs Dr)| |auto]. cbn beta.
  intros a s' (-> & P). apply wp_ret. auto.
Qed.
(** a text that fails as an integer at once *)
Lemma reads_core_fallback t t' (D : str -> Prop) k b : t = c_minus :: t' ->
  (forall r s, D r -> rest s = t ++ r -> next_bytes_is_float s = Ok false s) ->
  (forall T r s, inv T s -> D r -> rest s = t ++ r -> wp (integer None) (fun _ _ => False) (fun _ s' => adv T s s' /\ rest s' = t' ++ r) s) ->
  reads (float None) t D (k, b) -> reads number_core t D (NFloat k b).
Proof.
  intros Et NF NI H T s r J Hs Dr. unfold number_core. eapply wp_bind_ok; [eapply NF; eassumption|]. cbv iota.
  eapply wp_bind_ok; [reflexivity|]. apply wp_try. eapply wp_conseq; [apply (NI T r s J Dr Hs)|intros ? ? []|]. cbn beta.
  intros ierr s1 (A1 & R1). eapply wp_bind_ok; [reflexivity|]. apply wp_bind, wp_modify. cbv zeta.
  assert (A2 := adv_rewind T s s1 J A1). set (s2 := set_cursor _ s1) in *.
  apply wp_try. eapply wp_conseq; [apply (H T s2 r (adv_inv _ _ _ A2))| |intros ? ? []].
  - subst s2. cbn. exact Hs.
  - exact Dr.
  - cbn beta. intros a s3 (-> & R3 & A3). eapply wp_bind_ok; [reflexivity|]. rewrite R3. unfold get_cursor. cbn [fst]. rewrite R1.
    rewrite blen_app, (proj2 (Nat.leb_le _ _)) by lia. apply wp_ret. split; [reflexivity|]. split; [exact R3|]. eapply adv_trans; eassumption.
Qed.

Definition sign_word (r : str) : Prop := exists r', r = 105 :: 110 :: r' \/ r = 78 :: r'.
Lemma no_int_suffix s l : sign_word (rest s) -> consume_int_suffix l s = Ok None s.
Proof.
  intros W. induction l as [|k l IH]; [reflexivity|]. cbn [consume_int_suffix]. unfold bind.
  rewrite consume_ident_false; [exact IH|]. unfold ident_at. destruct W as (r' & [-> | ->]); destruct k; reflexivity.
Qed.
Lemma adv_cursor T s l : adv T s (set_cursor (get_cursor s) s) -> adv T s s -> l = s -> adv T s l.
Proof. now intros _ H ->. Qed.
Lemma integer_body_word t neg base backup T s : inv T s -> sign_word (rest s) ->
  wp (integer_body t neg base backup) (fun _ _ => False) (fun _ s' => adv T s s' /\ rest s' = rest s) s.
Proof.
  intros J W. unfold integer_body.
  assert (N0 : takewhile is_int_char (rest s) = []) by (destruct W as (r' & [-> | ->]); reflexivity).
  eapply wp_bind_ok; [apply next_while_eq|]. rewrite N0. cbn [blen].
  eapply wp_bind_ok; [reflexivity|]. eapply wp_bind_ok; [rewrite bdrop_0; reflexivity|]. cbv zeta.
  assert (G : forall s', rest s' = rest s -> adv T s s' ->
     wp (int_parse t neg base) (fun _ _ => False) (fun _ s' => adv T s s' /\ rest s' = rest s) s').
  { intros s' R' A'. assert (P : forall k n b, wp (parse_integer k n b) (fun _ _ => False) (fun _ s' => adv T s s' /\ rest s' = rest s) s').
    { intros k n b. unfold parse_integer. eapply wp_bind_ok; [apply next_while_eq|]. rewrite R', N0. cbn [blen Nat.eqb]. apply wp_fail. auto. }
    unfold int_parse. destruct t; [|destruct neg]; apply wp_bind; (eapply wp_conseq; [apply P|intros ? ? []|auto]). }
  destruct W as (r' & W). assert (W' : sign_word (rest s)) by now exists r'.
  destruct W as [W|W]; rewrite W in *; cbn iota; cbn [N.eqb Pos.eqb orb].
  - eapply wp_bind_ok; [reflexivity|].
    apply wp_bind. eapply wp_reads; [apply (reads_advance [] 0 eq_refl)|exact J|exact W|exact Logic.I|]. intros s1 R1 A1.
    eapply wp_bind_ok; [apply no_int_suffix; rewrite R1; exact W'|]. apply wp_bind, wp_modify.
    apply G; [cbn; exact W|now apply adv_rewind].
  - apply G; [exact W|now apply adv_refl].
Qed.
Lemma integer_word T r s : inv T s -> rest s = c_minus :: r -> sign_word r ->
  wp (integer None) (fun _ _ => False) (fun _ s' => adv T s s' /\ rest s' = r) s.
Proof.
  intros J Hs W. unfold integer. eapply wp_bind_ok; [unfold src; reflexivity|]. cbv zeta.
  eapply wp_bind_ok; [unfold peek_char_or_eof; rewrite Hs; reflexivity|]. cbn [N.eqb Pos.eqb].
  eapply wp_bind_ok; [unfold skip_next_char, try, next_char; rewrite Hs; reflexivity|].
  set (s1 := set_rest r s). assert (A : adv T s s1) by (apply adv_set_rest; [assumption|rewrite Hs; apply suf_cons]).
  assert (R1 : rest s1 = r) by reflexivity.
  do 3 (eapply wp_bind_ok; [rewrite consume_str_eq, R1; destruct W as (r' & [-> | ->]); reflexivity|]; cbv iota).
  eapply wp_conseq; [apply (integer_body_word None true 10 _ T s1); [apply A|exact W]|intros ? ? []|].
  cbn beta. intros _ s2 (A2 & R2). split; [eapply adv_trans; eassumption|assumption].
Qed.
Lemma word_not_float r s : rest s = c_minus :: r -> sign_word r -> next_bytes_is_float s = Ok false s.
Proof.
  intros Hs W. unfold next_bytes_is_float. unfold bind at 1, peek_char. rewrite Hs. cbn [N.eqb Pos.eqb orb]. cbv zeta.
  unfold bind at 1. rewrite (next_while_from_eq is_float_char s [c_minus] r) by auto. unfold bind at 1, src. rewrite Hs.
  unfold bind at 1. change 1%nat with (blen [c_minus]). change (c_minus :: r) with ([c_minus] ++ r). rewrite bdrop_app.
  unfold bind at 1. cbn [of_slice]. unfold ret at 1. rewrite btake_takewhile. unfold bind at 1. cbn [of_slice]. unfold ret at 1.
  rewrite (next_while_from_eq is_int_char s [c_minus] r) by auto. destruct W as (r' & [-> | ->]); reflexivity.
Qed.
Lemma reads_minus_word t' D k b : (forall r, sign_word (t' ++ r)) -> reads (float None) (c_minus :: t') D (k, b) ->
  reads any_number (c_minus :: t') D (NFloat k b).
Proof.
  intros W H. apply reads_core; [reflexivity|]. eapply reads_core_fallback; [reflexivity|..|exact H].
  - intros r s _ Hs. eapply word_not_float; [exact Hs|apply W].
  - intros T r s J _ Hs. apply integer_word; auto. 
Qed.
Lemma reads_word w x r0 n : In (w, x) [(s_inf, NFloat F32 (f_inf F32)); (s_inff32, NFloat F32 (f_inf F32)); (s_inff64, NFloat F64 (f_inf F64));
    (s_NaN, NFloat F32 (f_nan F32)); (s_NaNf32, NFloat F32 (f_nan F32)); (s_NaNf64, NFloat F64 (f_nan F64))] ->
  r0 = w -> n = x -> reads any_number r0 (starts_not xid_continue) n.
Proof.
  intros IN -> -> T s r J Hs D. unfold any_number.
  assert (K : forall w' l, ident_at w' (w ++ r) = false -> wp l (fun a s' => a = x /\ rest s' = r /\ adv T s s') (fun _ _ => False) s ->
    forall y, wp (b <- consume_ident w' ;; if b then ret y else l) (fun a s' => a = x /\ rest s' = r /\ adv T s s') (fun _ _ => False) s).
  { intros w' l NA H y. eapply wp_bind_ok; [apply consume_ident_false; now rewrite Hs|]. exact H. }
  assert (G : forall l, wp (b <- consume_ident w ;; if b then ret x else l) (fun a s' => a = x /\ rest s' = r /\ adv T s s') (fun _ _ => False) s).
  { intros l. eapply wp_bind_ok; [apply (consume_ident_true w s r Hs D)|]. cbv iota. apply wp_ret.
    split; [reflexivity|]. split; [reflexivity|]. apply adv_moved; [assumption|]. rewrite Hs. apply suf_app. }
  cbn [In] in IN. repeat (destruct IN as [IN|IN]; [injection IN as <- <-|]); [..|contradiction];
    repeat first [apply G | apply K; [try reflexivity; unfold ident_at; cbn; now rewrite xid_continue_ascii|]].
Qed.

Lemma reads_any_number n t : num_text n t -> reads any_number t float_end n.
Proof.
  destruct 1 as [sg neg p base ds z k SG BP N LK|k t z SP HI R|t b PT RD|k t b PT RD| | | | |k t f SF].
  - destruct (least_kind_range neg _ k LK) as [IR EQ].
    apply reads_core.
    { intros r _. apply num_head_wordless, num_head_app. eapply int_shape; eassumption. }
    apply reads_core_int.
    + intros r s FE Hs. apply (int_not_float sg neg p base ds z r); [exact SG|exact BP|exact N|rewrite Hs; texts|now left].
    + intros T s r J Hs D. eapply wp_conseq; [apply (integer_wp None sg neg p base ds z r T s SG BP N J Hs)| |].
      * now apply float_end_xid.
      * cbn beta. intros a s' (_ & -> & R' & A'). rewrite EQ. auto.
      * cbn beta. intros a s' (F & _). congruence.
  - destruct HI as [sg neg p base ds z SG BP N].
    apply reads_core.
    { intros r _. apply num_head_wordless, num_head_app, num_head_app. eapply int_shape; eassumption. }
    apply reads_core_int.
    + intros r s FE Hs. apply (int_not_float sg neg p base ds z (ik_suffix k ++ r)); [exact SG|exact BP|exact N|rewrite Hs; texts|right; eauto].
    + intros T s r J Hs D. eapply wp_conseq; [apply (integer_suffix_wp None sg neg p base ds z k r T s SG BP N SP J)| |].
      * rewrite Hs. texts.
      * now apply float_end_xid.
      * cbn beta. intros a s' (_ & _ & -> & R' & A'). auto.
      * cbn beta. intros a s' [(F & _)|(_ & F & _)]; [congruence|contradiction].
  - assert (SH := pointed_shape t PT). unfold least_float. apply reads_core.
    { intros r _. apply num_head_wordless, num_head_app. apply (fs_head t SH). }
    destruct (b =? f_widen (f_narrow b)) eqn:EQ; (apply reads_core_float;
      [intros r s FE Hs; apply (pointed_float t r s PT Hs); now left
      |apply reads_numeral; [exact SH|]; intros s; unfold float_parse; rewrite RD, EQ; reflexivity]).
  - assert (SH := pointed_shape t PT). apply reads_core.
    { intros r _. apply num_head_wordless, num_head_app, num_head_app. apply (fs_head t SH). }
    apply reads_core_float.
    + intros r s FE Hs. rewrite <- app_assoc in Hs. apply (pointed_float t _ s PT Hs). right. eauto.
    + eapply reads_conseq; [apply float_end_xid|]. apply reads_numeral_suffix; auto.
  - eapply reads_conseq; [apply float_end_xid|]. eapply reads_word; [|reflexivity|reflexivity]. cbn. tauto.
  - eapply reads_conseq; [apply float_end_xid|]. eapply reads_word; [|reflexivity|reflexivity]. cbn. tauto.
  - assert (FP := read_minf F64). unfold least_float. change s_minf with (c_minus :: [105; 110; 102]) in *.
    destruct (_ =? _) eqn:EQ; (apply reads_minus_word; [intros r; eexists; left; reflexivity|]);
    (eapply reads_conseq; [apply float_end_xid|]; eapply reads_special_gen; [apply sf_minf|]);
    intros s; unfold float_parse; rewrite FP, EQ; reflexivity.
  - assert (FP := read_mnan F64). unfold least_float. change s_mNaN with (c_minus :: [78; 97; 78]) in *.
    destruct (_ =? _) eqn:EQ; (apply reads_minus_word; [intros r; eexists; right; reflexivity|]);
    (eapply reads_conseq; [apply float_end_xid|]; eapply reads_special_gen; [apply sf_mnan|]);
    intros s; unfold float_parse; rewrite FP, EQ; reflexivity.
  - assert (RS := reads_special_suffix None k t f SF (or_introl eq_refl)).
    eapply reads_conseq; [apply float_end_xid|]. destruct SF.
    + eapply reads_word; [|reflexivity|reflexivity]. destruct k; cbn; tauto.
    + apply reads_minus_word; [intros r; eexists; left; reflexivity|exact RS].
    + eapply reads_word; [|reflexivity|reflexivity]. destruct k; cbn; tauto.
    + apply reads_minus_word; [intros r; eexists; right; reflexivity|exact RS].
Qed.
End Num.
