(** Reading a value looks no further than the value: two texts that begin with
    the same value, followed by different things that could not continue it,
    are read alike.  The extensions that let a value be written without its
    brackets ([implicit_some], [unwrap_variant_newtypes]) are off where it is
    read first. *)
From Coq Require Import String Ascii NArith ZArith Lia Bool List.
From Coq Require Import ZifyBool ZifyNat ZifyN.
From Verif Require Import Base Facts Value Data Parse De Wp EnvOk LexSafe DeSafe Layout LexWs Lit LexRead LexDoc DocSafe DocRead Keep Inv LexSound Repr VRepr Accept Sound ReprFacts TypedRead AnyRead NumLocal NumExact AnyMain.
Import ListNotations.
Open Scope N_scope.
Open Scope list_scope.
Open Scope m_scope.

Section S.
Context {E : Env} {X : XidOk E}.

(** ** Going forward *)
Definition plain (s : st) : Prop := nt s = false /\ (x_unwrap_variant_newtypes (ext s) = false /\ x_implicit_some (ext s) = false).
Definition fwd (T : str) (s s1 : st) : Prop :=
  inv T s1 /\ suf (rest s1) (rest s) /\ ext s1 = ext s /\ lim s1 = lim s /\ nt s1 = false.
Definition mv {A} (m : M A) : Prop := keeps m /\ forall T s a s1, inv T s -> plain s -> m s = Ok a s1 -> fwd T s s1.
Lemma fwd_plain T s s1 : plain s -> fwd T s s1 -> plain s1.
Proof. intros [N U] (_ & _ & F & _ & N1). split; [assumption|now rewrite F]. Qed.
Lemma fwd_trans T s s1 s2 : fwd T s s1 -> fwd T s1 s2 -> fwd T s s2.
Proof. intros (_ & S1 & F1 & L1 & _) (I2 & S2 & F2 & L2 & N2). unfold fwd. repeat split; try apply I2; try congruence. eapply suf_trans; eassumption. Qed.
Lemma adv_fwd T s s1 : plain s -> adv T s s1 -> fwd T s s1.
Proof. intros [N _] A1. destruct (adv_keeps T s s1 A1) as (K1 & K2 & K3). destruct A1 as (I1 & S1 & _). unfold fwd. repeat split; try apply I1; congruence || assumption. Qed.
Lemma mv_total {A} (m : M A) : total m -> keeps m -> mv m.
Proof. intros TM K. split; [exact K|]. intros T s a s1 J P H. apply adv_fwd; [assumption|]. eapply total_ok; eassumption. Qed.
Lemma mv_lex {A} (m : M A) : total m -> (forall s0, still s0 m) -> mv m.
Proof. intros TM K. apply mv_total; [assumption|now apply keeps_still]. Qed.
Lemma mv_ret {A} (a : A) : mv (ret a).
Proof. apply mv_lex; [apply total_ret|auto with still]. Qed.
Lemma mv_fail {A} x : mv (@fail A x).
Proof. split; [apply keeps_still; auto with still|]. discriminate. Qed.
Lemma mv_oof {A} : mv (@oof A).
Proof. split; [apply keeps_still; auto with still|]. discriminate. Qed.
Lemma mv_bind {A B} (m : M A) (f : A -> M B) : mv m -> (forall a, mv (f a)) -> mv (bind m f).
Proof.
  intros [KM HM] HF. split; [apply keeps_bind; [assumption|apply HF]|]. intros T s b s1 J P H. apply bind_ok in H as (a & s2 & H2 & H).
  assert (F2 := HM T s a s2 J P H2). eapply fwd_trans; [exact F2|]. eapply (proj2 (HF a)); [apply F2|eapply fwd_plain; eassumption|exact H].
Qed.
Lemma mv_get {B} (f : st -> M B) : (forall s, plain s -> mv (f s)) -> (forall s, keeps (f s)) -> mv (bind get f).
Proof. intros HF HK. split; [now apply keeps_get|]. intros T s b s1 J P H. exact (proj2 (HF s P) T s b s1 J P H). Qed.
Lemma mv_src {B} (f : str -> M B) : (forall r, mv (f r)) -> mv (bind src f).
Proof. intros HF. split; [apply keeps_bind; [apply keeps_still; auto with still|apply HF]|]. intros T s b s1 J P H. exact (proj2 (HF (rest s)) T s b s1 J P H). Qed.
Lemma mv_guard {A} r (m : M A) : mv m -> mv (guard_with r m).
Proof.
  intros [KM HM]. split; [now apply keeps_guard|]. intros T s a s1 J P H. unfold guard_with in H. destruct (lim s) as [[|l]|] eqn:QL; [discriminate| |now apply (HM T s a s1)].
  destruct (m (set_lim (Some l) s)) as [a' s2| | |] eqn:Q; try discriminate. injection H as <- <-.
  destruct (HM T (set_lim (Some l) s) a' s2 J P Q) as (I2 & S2 & F2 & L2 & N2). unfold fwd. cbn in *. repeat split; try apply I2; try assumption.
  rewrite L2, QL. reflexivity.
Qed.
Lemma mv_map_err {A} f (m : M A) : mv m -> mv (map_err f m).
Proof. intros [KM HM]. split; [now apply keeps_map_err|]. intros T s a s1 J P H. apply map_err_ok in H. now apply (HM T s a s1). Qed.
Lemma mv_modify f : (forall s, plain s -> rest (f s) = rest s /\ pre_ws (f s) = pre_ws s /\ prev (f s) = prev s /\ ext (f s) = ext s /\ lim (f s) = lim s /\ nt (f s) = false) ->
  keeps (modify f) -> mv (modify f).
Proof.
  intros HF K. split; [exact K|]. intros T s a s1 J P H. injection H as <- <-. destruct (HF s P) as (R & W & V & F & L & N).
  unfold fwd, inv. rewrite R, W, V, F, L, N. split; [exact J|]. split; [apply suf_refl|auto].
Qed.
Lemma keeps_set_nt b : keeps (modify (set_nt b)).
Proof. apply keeps_modify. intros s. cbn. auto. Qed.
Lemma mv_set_nt : mv (modify (set_nt false)).
Proof. apply mv_modify; [intros s P; cbn; repeat split|apply keeps_set_nt]. Qed.
Lemma mv_skip_ws : mv skip_ws.
Proof. apply mv_total; [apply total_skip_ws|apply keeps_skip_ws]. Qed.
Lemma mv_consume_char c : mv (consume_char c).
Proof. apply mv_lex; [apply total_consume_char|auto with still]. Qed.
Lemma mv_check_char c : mv (check_char c).
Proof. apply mv_lex; [apply total_check_char|auto with still]. Qed.
Lemma mv_consume_str c : mv (consume_str c).
Proof. apply mv_lex; [apply total_consume_str|auto with still]. Qed.
Lemma mv_consume_ident c : mv (consume_ident c).
Proof. apply mv_lex; [apply total_consume_ident|auto with still]. Qed.
Lemma mv_check_ident c : mv (check_ident c).
Proof. apply mv_lex; [apply total_check_ident|auto with still]. Qed.
Lemma mv_skip_identifier : mv skip_identifier.
Proof. apply mv_lex; [apply total_skip_identifier|auto with still]. Qed.
Lemma mv_float_range n : mv (float_range_or_value n).
Proof. apply mv_lex; [apply total_float_range|auto with still]. Qed.
Lemma mv_comma : mv comma.
Proof. apply mv_total; [apply total_comma|apply keeps_comma]. Qed.
Lemma mv_peek_eof : mv peek_char_or_eof.
Proof. apply mv_lex; [apply total_peek_char_or_eof|auto with still]. Qed.
Lemma mv_struct_type : mv (check_struct_type true false).
Proof. split; [apply keeps_struct_type|]. intros T s t s1 J P H. apply adv_fwd; [assumption|]. now apply (check_struct_type_ok true false T s t s1). Qed.
Create HintDb mv.
#[local] Hint Resolve mv_ret mv_fail mv_oof mv_set_nt mv_skip_ws mv_consume_char mv_check_char mv_consume_str mv_consume_ident mv_check_ident
  mv_skip_identifier mv_float_range mv_comma mv_peek_eof mv_struct_type : mv.
Ltac mv1 :=
  match goal with
  | |- mv (bind src _) => apply mv_src; intros ?
  | |- mv (bind _ _) => apply mv_bind; [|intros ?]
  | |- mv (guard _) => apply mv_guard
  | |- mv (guard_r _) => apply mv_guard
  | |- mv (map_err _ _) => apply mv_map_err
  | |- _ => solve [auto with mv]
  | |- mv (match ?x with _ => _ end) => destruct x
  | |- mv (let _ := _ in _) => cbv zeta
  end.
Ltac mvs := cbv zeta; repeat mv1.
Lemma mv_has_element t h : mv (has_element t h).
Proof. unfold has_element. mvs. Qed.
#[local] Hint Resolve mv_has_element : mv.
Lemma mv_next_element {A} t (m : M A) h : mv m -> mv (next_element t m h).
Proof. intros H. unfold next_element. mvs. Qed.
#[local] Hint Resolve mv_next_element : mv.
Lemma mv_seq_loop {A} t (m : M A) n : mv m -> forall h, mv (seq_loop n t m h).
Proof. intros H. induction n as [|n IH]; intros h; cbn [seq_loop]; mvs. Qed.
#[local] Hint Resolve mv_seq_loop : mv.
Lemma mv_seq_all {A} t (m : M A) : mv m -> mv (seq_all t m).
Proof. intros H. unfold seq_all. mvs. Qed.
Lemma mv_next_key {A} t (m : M A) h : mv m -> mv (next_key t m h).
Proof. intros H. unfold next_key. mvs. Qed.
Lemma mv_next_value {A} (m : M A) : mv m -> mv (next_value m).
Proof. intros H. unfold next_value. mvs. Qed.
#[local] Hint Resolve mv_seq_all mv_next_key mv_next_value : mv.
Lemma mv_map_loop {A B} t (m : M A) (v : M B) n : mv m -> mv v -> forall h, mv (map_loop n t m v h).
Proof. intros H HV. induction n as [|n IH]; intros h; cbn [map_loop]; mvs. Qed.
#[local] Hint Resolve mv_map_loop : mv.
Lemma mv_map_all {A B} t (m : M A) (v : M B) : mv m -> mv v -> mv (map_all t m v).
Proof. intros H HV. unfold map_all. mvs. Qed.
#[local] Hint Resolve mv_map_all : mv.
Lemma mv_identifier : mv de_identifier.
Proof.
  unfold de_identifier. apply mv_bind; [apply mv_lex; [apply eats_total, identifier_eats|auto with still]|]. intros id.
  apply mv_bind; [|intros _; apply mv_ret]. apply mv_modify; [intros s [P U]; cbn; repeat split; assumption|]. apply keeps_modify. intros s. cbn. auto.
Qed.
#[local] Hint Resolve mv_identifier : mv.
Lemma mv_de_seq {A} (m : M A) : mv m -> mv (de_seq m).
Proof. intros H. unfold de_seq. mvs. Qed.
Lemma mv_de_map {A} (m : M A) : mv m -> mv (de_map m).
Proof. intros H. unfold de_map. mvs. Qed.
Lemma mv_de_tuple {A} (m : M A) : mv m -> mv (de_tuple m).
Proof.
  intros H. split; [apply keeps_de_tuple, H|]. unfold de_tuple. intros T s a s1 J P Q.
  refine (proj2 (mv_get _ _ _) T s a s1 J P Q); [|intros s0; apply keeps_bind; [|intros []]].
  - intros s0 [-> _]. mvs.
  - destruct (nt s0); apply keeps_still; auto with still.
  - apply keeps_bind; [apply keeps_set_nt|]. intros _. apply keeps_bind; [apply keeps_guard, H|]. intros v. apply keeps_bind; [apply keeps_skip_ws|]. intros _.
    apply keeps_bind; [destruct (nt s0); apply keeps_still; auto with still|]. intros []; apply keeps_still; auto with still.
  - apply keeps_still; auto with still.
Qed.
Lemma mv_struct {A} (m : M A) : mv m -> mv (struct_after_name [] m).
Proof.
  intros H. split; [apply keeps_struct, H|]. unfold struct_after_name. intros T s a s1 J P Q.
  refine (proj2 (mv_get _ _ _) T s a s1 J P Q); [|intros s0; apply keeps_bind; [|intros []]].
  - intros s0 [-> _]. mvs.
  - destruct (nt s0); apply keeps_still; auto with still.
  - apply keeps_bind; [apply keeps_set_nt|]. intros _. apply keeps_bind; [apply keeps_guard, keeps_map_err, H|]. intros v. apply keeps_bind; [apply keeps_skip_ws|]. intros _.
    apply keeps_bind; [destruct (nt s0); apply keeps_still; auto with still|]. intros []; apply keeps_still; auto with still.
  - apply keeps_still; auto with still.
Qed.
#[local] Hint Resolve mv_de_seq mv_de_map mv_de_tuple mv_struct : mv.
Lemma mv_number_or_bytes : mv any_number_or_bytes.
Proof. apply mv_total; [apply total_any_number_or_bytes|apply keeps_any_number_or_bytes]. Qed.
Lemma mv_string : mv parse_string.
Proof. apply mv_lex; [apply total_parse_string|auto with still]. Qed.
Lemma mv_char : mv parse_char.
Proof. apply mv_lex; [apply total_parse_char|auto with still]. Qed.
#[local] Hint Resolve mv_number_or_bytes mv_string mv_char : mv.
Lemma mv_de_option {A} (a : A) m : mv m -> mv (de_option a m).
Proof.
  intros H. unfold de_option. apply mv_bind; [auto with mv|]. intros []; [auto with mv|]. apply mv_bind; [auto with mv|]. intros sm.
  apply mv_bind; [destruct sm; mvs|]. intros [].
  - apply mv_bind; [auto with mv|]. intros _. apply mv_bind; [|intros _; mvs]. apply mv_modify; [intros s [P [U _]]; cbn; rewrite U; repeat split|].
    apply keeps_modify. intros s. cbn. auto.
  - apply mv_get.
    + intros s P. destruct (x_implicit_some (ext s)); mvs.
    + intros s. destruct (x_implicit_some (ext s)); [apply keeps_guard, H|apply keeps_still; auto with still].
Qed.
#[local] Hint Resolve mv_de_option : mv.

(** ** How values begin *)
(** a word that is all of it, or that something follows that cannot end an item *)
Definition wordy (t : str) : Prop := exists c n u, t = (c :: n) ++ u /\ In c [101; 69; 105; 78] /\ forallb xid_continue n = true /\
  match u with [] => True | d :: _ => xid_continue d = false /\ opener d end.
Definition okc (d : char) : bool := is_float_char d || is_alpha d || is_digit d.
Lemma okc_opener d : okc d = true -> opener d.
Proof.
  intros H. unfold okc, is_float_char, is_alpha, is_digit in H. split.
  - destruct (is_ws_char d) eqn:W; [|reflexivity]. unfold is_ws_char in W. lia.
  - intros IN. cbn in IN. lia.
Qed.
Lemma wordy_word c t : In c [101; 69; 105; 78] -> forallb okc t = true -> wordy (c :: t).
Proof.
  intros HC H. exists c, (takewhile xid_continue t), (dropwhile xid_continue t). split; [cbn; now rewrite <- take_drop_while|]. split; [assumption|].
  split; [apply takewhile_all|]. rewrite (take_drop_while xid_continue t), forallb_app in H. apply andb_prop in H as [_ H].
  assert (D := dropwhile_not xid_continue t). destruct (dropwhile xid_continue t) as [|d u]; [exact Logic.I|].
  cbn in H, D. apply andb_prop in H as [H _]. split; [exact D|now apply okc_opener].
Qed.
Lemma wordy_app t d y : wordy t -> xid_continue d = false -> opener d -> wordy (t ++ d :: y).
Proof.
  intros (c & n & u & -> & HC & HN & HU) XD OD. exists c, n, (u ++ d :: y). split; [now rewrite <- app_assoc|]. split; [assumption|].
  split; [assumption|]. destruct u; [now split|exact HU].
Qed.
Lemma skip_wordy c n u T s r : In c [101; 69; 105; 78] -> forallb xid_continue n = true -> inv T s -> rest s = (c :: n) ++ u ++ r -> starts_not xid_continue (u ++ r) ->
  exists s1, skip_identifier s = Ok (Some (c :: n)) s1 /\ rest s1 = u ++ r /\ adv T s s1.
Proof.
  intros HC HN I0 Hs XN. assert (NS : starts_string_literal (rest s) = false /\ starts_with s_rh (rest s) = false).
  { rewrite Hs. cbn in HC. repeat (destruct HC as [<-|HC]; [now split|]). contradiction. }
  assert (FC : is_ident_first_char c = true).
  { unfold is_ident_first_char. cbn in HC. repeat (destruct HC as [<-|HC]; [now rewrite xid_start_ascii|]). contradiction. }
  destruct NS as [N1 N2].
  assert (W : wp skip_identifier (fun a s1 => a = Some (c :: n) /\ rest s1 = u ++ r /\ adv T s s1) (fun _ _ => False) s).
  { unfold skip_identifier. eapply wp_bind_ok; [reflexivity|]. rewrite N1, N2. rewrite Hs at 1. cbn [app]. rewrite FC.
    eapply wp_bind_ok; [apply (next_while_from_eq xid_continue s [c] (n ++ u ++ r)); [exact Hs|cbn; lia]|].
    rewrite takewhile_app by assumption. cbv zeta. change (len_utf8 c + blen n)%nat with (blen (c :: n)). rewrite Hs.
    eapply wp_bind_ok; [rewrite btake_app; reflexivity|].
    apply wp_bind. eapply wp_reads; [apply reads_advance; reflexivity|exact I0|exact Hs|exact Logic.I|]. intros s1 E1 A1.
    apply wp_ret. auto. }
  Transparent wp. unfold wp in W. Opaque wp. destruct (skip_identifier s) as [a s1| | |]; try contradiction. destruct W as (-> & R & A1). eauto.
Qed.
Definition leads (t : str) : Prop := lead t \/ wordy t.
Lemma look_leads t T s r : leads t -> inv T s -> rest s = t ++ r -> after_item r ->
  wp look (fun t _ => is_tuple t) (fun _ _ => False) s.
Proof.
  intros [HL|(c & n & u & -> & HC & HN & HU)] I0 Hs AI; [eapply look_tuple; eassumption|].
  rewrite <- app_assoc in Hs. unfold look.
  assert (DR : delim r).
  { destruct AI as (w & L & [(r' & ->)|(w' & r' & _ & _ & ->)]); apply layout_delim; auto; cbn; tauto. }
  destruct (skip_wordy c n u T s r HC HN I0 Hs) as (s1 & H1 & R1 & A1).
  { destruct u as [|d u]; [|cbn; apply HU]. cbn [app]. apply delim_ident_end in DR. destruct r as [|d r]; [exact Logic.I|]. cbn in *.
    destruct (xid_continue d) eqn:Q; [|reflexivity]. apply continue_raw in Q. destruct DR. congruence. }
  eapply wp_bind_ok; [exact H1|]. destruct u as [|d u].
  - cbn [app] in R1. destruct AI as (w & L & [(r' & ->)|(w' & r' & L' & SO & ->)]).
    + apply wp_bind. eapply wp_reads; [apply (reads_ws w L)|apply A1|exact R1|apply solid_char; reflexivity || discriminate|]. intros s2 R2 A2.
      eapply wp_bind_ok; [unfold peek_char; rewrite R2; reflexivity|]. cbn [N.eqb Pos.eqb]. apply wp_ret. unfold is_tuple. auto.
    + apply wp_bind. eapply wp_reads; [apply (reads_ws w L)|apply A1|exact R1|apply solid_char; reflexivity || discriminate|]. intros s2 R2 A2.
      eapply wp_bind_ok; [unfold peek_char; rewrite R2; reflexivity|]. cbn [N.eqb Pos.eqb].
      eapply wp_bind_ok; [unfold skip_next_char, try, next_char; rewrite R2; reflexivity|].
      assert (A3 : adv T s2 (set_rest (w' ++ r') s2)) by (apply adv_set_rest; [apply A2|rewrite R2; apply suf_cons]).
      apply wp_bind. eapply wp_reads; [apply (reads_ws w' L')|apply A3|reflexivity|exact SO|]. intros s4 R4 A4.
      eapply wp_bind_ok; [unfold check_char; reflexivity|]. apply wp_ret. unfold is_tuple. destruct (match rest s4 with [] => _ | _ => _ end); auto.
  - cbn [app] in R1. destruct HU as [_ OD].
    apply wp_bind. eapply wp_reads; [apply (reads_ws [] l_nil)|apply A1|exact R1| |].
    { apply opens_solid. exact OD. }
    intros s2 R2 A2. eapply wp_bind_ok; [unfold peek_char; rewrite R2; reflexivity|]. destruct OD as [_ ND]. cbn in ND.
    replace (d =? c_colon) with false by lia. replace (d =? c_comma) with false by lia. replace (d =? c_rp) with false by lia.
    apply wp_ret. unfold is_tuple. auto.
Qed.
Lemma noid_app t y : noid t -> noid (t ++ y).
Proof. intros H s r Hs. rewrite <- app_assoc in Hs. now apply (H s (y ++ r)). Qed.
Lemma noid_num c t : is_digit c = true \/ c = c_plus \/ c = c_minus \/ c = c_dot -> noid (c :: t).
Proof. intros H. apply noid_head; [apply not_first; unfold is_alpha, is_digit in *; lia|unfold is_digit in H; lia]. Qed.
Lemma num_lit_leads n t : num_lit n t -> (noid t \/ wordy t) /\ forall r, opens (t ++ r).
Proof.
  assert (D : forall c t, is_digit c = true \/ c = c_plus \/ c = c_minus \/ c = c_dot -> (noid (c :: t) \/ wordy (c :: t)) /\ forall r, opens ((c :: t) ++ r)).
  { intros c t0 H. split; [left; now apply noid_num|]. intros r. apply okc_opener. unfold okc, is_float_char, is_digit in *. lia. }
  assert (WD : forall c t, In c [101; 69; 105; 78] -> forallb okc t = true -> (noid (c :: t) \/ wordy (c :: t)) /\ forall r, opens ((c :: t) ++ r)).
  { intros c t0 HC HT. split; [right; now apply wordy_word|]. intros r. apply okc_opener. cbn in HC. unfold okc, is_alpha. lia. }
  assert (FW : forall w f x, float_word w f -> forallb okc x = true -> (noid (w ++ x) \/ wordy (w ++ x)) /\ forall r, opens ((w ++ x) ++ r)).
  { intros w f x H HX. destruct H; cbn [app s_inf s_NaN]; first [apply WD; [cbn; tauto|cbn; now rewrite HX]|apply D; tauto]. }
  assert (W : forall w f x, (w, f) = (s_inf, f_inf) \/ (w, f) = (s_NaN, f_nan) -> forallb okc x = true -> (noid (w ++ x) \/ wordy (w ++ x)) /\ forall r, opens ((w ++ x) ++ r)).
  { intros w f x [Q|Q] HX; injection Q as -> _; (apply WD; [cbn; tauto|cbn; now rewrite HX]). }
  assert (SP : forall u v x, spelled u v -> forallb okc x = true -> (noid (u ++ x) \/ wordy (u ++ x)) /\ forall r, opens ((u ++ x) ++ r)).
  { intros [|c u] v x (NE & F & _ & _ & US) HX; [contradiction|]. cbn in F. apply andb_prop in F as [FC F].
    assert (HU : forallb okc (u ++ x) = true).
    { rewrite forallb_app, HX, andb_true_r. rewrite forallb_forall in *. intros d IN. unfold okc. now rewrite (F d IN). }
    assert (NU : c <> c_us). { intros ->. destruct (US [] u eq_refl) as (a1 & c0 & a2 & Q & _). destruct a1; discriminate. }
    unfold is_float_char in FC. destruct (c =? 101) eqn:Q1; [apply N.eqb_eq in Q1; subst; apply WD; [cbn; tauto|assumption]|].
    destruct (c =? 69) eqn:Q2; [apply N.eqb_eq in Q2; subst; apply WD; [cbn; tauto|assumption]|]. apply D. unfold is_digit in *. lia. }
  assert (FS : forall k, forallb okc (fk_suffix k) = true) by (intros []; reflexivity).
  assert (AN : forall u, (noid (u ++ []) \/ wordy (u ++ [])) /\ (forall r, opens ((u ++ []) ++ r)) -> (noid u \/ wordy u) /\ forall r, opens (u ++ r)) by (intros u; now rewrite app_nil_r).
  assert (IL : forall t z x, int_lit t z -> (noid (t ++ x) \/ wordy (t ++ x)) /\ forall r, opens ((t ++ x) ++ r)).
  { intros t0 z x [sg neg p base ds z0 SG BP NM]. destruct (int_shape sg neg p base ds z0 SG BP NM) as (sg' & neg' & c & t' & -> & SG' & DC).
    destruct SG'; cbn [app]; apply D; auto. }
  intros H. destruct H as [w f H|k w f H|k b t H|k z t R H].
  - apply AN. eapply W; [exact H|reflexivity].
  - eapply W; [exact H|apply FS].
  - destruct H; [apply AN; eapply FW; [eassumption|reflexivity]|eapply FW; [eassumption|apply FS]|apply AN; eapply SP; [eassumption|reflexivity]|eapply SP; [eassumption|apply FS]].
  - destruct H as [t H|t H|t b -> H ->]; [apply AN; now apply IL with z|now apply IL with z|].
    assert (HT : exists t', t = c_b :: c_sq :: t') by (destruct H; eauto). destruct HT as [t' ->]. split; [left; apply noid_lit; reflexivity|].
    intros r. apply okc_opener. reflexivity.
Qed.
Lemma num_lit_leads_app n t y : num_lit n t -> match y with [] => True | d :: _ => d = c_dot end -> leads (t ++ y) /\ forall r, opens ((t ++ y) ++ r).
Proof.
  intros H HY. destruct (num_lit_leads n t H) as [L O]. split; [|intros r; rewrite <- app_assoc; apply O].
  destruct y as [|d y]; [rewrite app_nil_r; destruct L as [L|L]; [left; now left|now right]|]. subst d.
  destruct L as [L|L]; [left; left; now apply noid_app|right]. apply wordy_app; [assumption|now rewrite xid_continue_ascii|]. now apply okc_opener.
Qed.
Lemma vacc_leads e b x t d : x_unwrap_variant_newtypes e = false -> x_implicit_some e = false -> vacc e b x t d -> b = false -> leads t /\ forall r, opens (t ++ r).
Proof.
  intros UV IM H HB.
  assert (WI : forall w, In w keywords -> leads w /\ forall r, opens (w ++ r)).
  { intros w IN. split; [left; right; left; exists w, w; split; [now apply word_ident|now left]|]. intros r. eapply ident_opens. now apply word_ident. }
  assert (NI : forall c t, c < 128 -> is_alpha c = false -> c <> c_us -> opener c -> leads (c :: t) /\ forall r, opens ((c :: t) ++ r)).
  { intros c t0 C1 C2 C3 OC. split; [|intros r; exact OC]. left. left. apply noid_head; [now apply not_first|]. intros ->. discriminate. }
  assert (OP : forall c, In c [c_lp; c_lb; c_lc; c_dot] -> opener c).
  { intros c IN. cbn in IN. split; [|cbn; lia]. repeat (destruct IN as [<-|IN]; [reflexivity|]). contradiction. }
  assert (NA : forall tn y, Accept.any_name tn -> leads (tn ++ c_lp :: y) /\ forall r, opens ((tn ++ c_lp :: y) ++ r)).
  { intros tn y [->|(ti & n & w & HI & LW & ->)].
    - apply NI; [reflexivity|reflexivity|discriminate|apply OP; cbn; tauto].
    - split; [left; right; left; exists ti, n; split; [assumption|]; right; exists w, y; split; [assumption|]; flat; reflexivity|].
      intros r. rewrite <- !app_assoc. eapply ident_opens; eassumption. }
  destruct H; try discriminate.
  - destruct H.
    + apply WI. destruct b0; cbn; tauto.
    + apply WI. cbn. tauto.
    + apply NI; [reflexivity|reflexivity|discriminate|apply OP; cbn; tauto].
    + split; [left; right; left; eauto|]. intros r. eapply ident_opens; eassumption.
    + split; [left; left; eapply noid_bytes; eassumption|]. intros r. destruct H; apply okc_opener; reflexivity.
    + rewrite <- (app_nil_r t). eapply num_lit_leads_app; [eassumption|exact Logic.I].
    + eapply num_lit_leads_app; [eassumption|]. destruct H as [-> | ->]; reflexivity.
    + eapply num_lit_leads_app; [eassumption|reflexivity].
    + destruct H as [-> | ->]; (apply NI; [reflexivity|reflexivity|discriminate|apply OP; cbn; tauto]).
    + apply NI; [reflexivity|reflexivity|discriminate|apply OP; cbn; tauto].
    + split; [left; left; eapply noid_str; eassumption|]. intros r. destruct H; split; reflexivity || (cbn; intuition discriminate).
    + split; [left; left; eapply noid_char; eassumption|]. intros r. destruct H; split; reflexivity || (cbn; intuition discriminate).
  - split; [|intros r; rewrite <- app_assoc; apply (ident_opens s_Some s_Some); apply word_ident; cbn; tauto].
    left. right. left. exists s_Some, s_Some. split; [apply word_ident; cbn; tauto|]. right. exists w. eexists. split; [assumption|reflexivity].
  - congruence.
  - apply NI; [reflexivity|reflexivity|discriminate|apply OP; cbn; tauto].
  - apply NI; [reflexivity|reflexivity|discriminate|apply OP; cbn; tauto].
  - inversion H1; subst; cbn [app]. now apply NA.
  - inversion H1; subst; cbn [app]. now apply NA.
Qed.

(** ** What the look-ahead finds *)
Lemma sepd_first {A} (R : A -> str -> nat -> Prop) l t d : (forall a t d, R a t d -> forall r, opens (t ++ r)) -> sepd R l t d -> l = [] /\ t = [] \/
  exists a l' ta da y, l = a :: l' /\ R a ta da /\ t = ta ++ y /\ forall w r, layout w -> after_item (y ++ w ++ c_rp :: r).
Proof.
  intros HO H. destruct H as [|a t d H|a t w d H L|a b l t w w' ts d d' H L L' HS]; [now left|right..].
  - exists a, [], t, d, []. split; [reflexivity|]. split; [assumption|]. split; [now rewrite app_nil_r|]. intros w r LW. exists w. split; [assumption|]. left. now exists r.
  - exists a, [], t, d, (w ++ [c_comma]). split; [reflexivity|]. split; [assumption|]. split; [reflexivity|]. intros w' r LW. exists w. split; [assumption|].
    right. exists w', (c_rp :: r). split; [assumption|]. split; [apply solid_char; reflexivity || discriminate|]. now rewrite <- app_assoc.
  - exists a, (b :: l), t, d, (w ++ c_comma :: w' ++ ts). split; [reflexivity|]. split; [assumption|]. split; [reflexivity|]. intros w2 r LW. exists w. split; [assumption|].
    right. exists w', (ts ++ w2 ++ c_rp :: r). split; [assumption|]. split; [|flat; reflexivity].
    apply opens_solid. inversion HS; subst; rewrite <- ?app_assoc; eapply HO; eassumption.
Qed.
Lemma class_found e w t w' : x_unwrap_variant_newtypes e = false -> x_implicit_some e = false -> layout w -> layout w' ->
  (exists l d, sepd (vacc e false) l t d) \/ (exists l d, sepd (pair_text key_text (vacc e false)) l t d) ->
  exists P : struct_type -> Prop, (P = is_tuple \/ P = eq Named) /\ forall T s r, inv T s -> rest s = c_lp :: w ++ t ++ w' ++ c_rp :: r ->
    wp (check_struct_type true false) (fun ty s1 => P ty /\ rest s1 = rest s /\ adv T s s1) (fun _ _ => False) s.
Proof.
  intros UV IM L L' HT.
  assert (EMP : t = [] -> exists P : struct_type -> Prop, (P = is_tuple \/ P = eq Named) /\ forall T s r, inv T s -> rest s = c_lp :: w ++ t ++ w' ++ c_rp :: r ->
    wp (check_struct_type true false) (fun ty s1 => P ty /\ rest s1 = rest s /\ adv T s s1) (fun _ _ => False) s).
  { intros ->. exists is_tuple. split; [now left|]. intros T s r I0 Hs. apply check_type_empty with (w := w ++ w') (r := r); [assumption| |now apply layout_app].
    rewrite Hs. cbn [app]. now rewrite <- app_assoc. }
  destruct HT as [(l & d & HS)|(l & d & HS)].
  - assert (HO : forall a t d, vacc e false a t d -> forall r, opens (t ++ r)) by (intros a t0 d0 HV; eapply vacc_leads; eauto).
    apply sepd_first in HS as [[_ ->]|(a & l' & ta & da & y & -> & HV & -> & AI)]; [now apply EMP| |exact HO].
    exists is_tuple. split; [now left|]. intros T s r I0 Hs. rewrite <- app_assoc in Hs. eapply check_type_look with (w := w); [assumption|exact Hs|assumption|eapply HO; eassumption|].
    intros s1 A1 R1. eapply look_leads; [eapply vacc_leads; eauto|apply A1|exact R1|now apply AI].
  - assert (HO : forall a t d, pair_text key_text (vacc e false) a t d -> forall r, opens (t ++ r)).
    { intros a t0 d0 [k0 tk dk v tv dv w1 w2 (n & _ & HI & _) _ _ _] r. rewrite <- !app_assoc. eapply ident_opens; eassumption. }
    apply sepd_first in HS as [[_ ->]|(a & l' & ta & da & y & -> & HV & -> & AI)]; [now apply EMP| |exact HO].
    exists (eq Named). split; [now right|]. intros T s r I0 Hs. rewrite <- app_assoc in Hs. eapply check_type_look with (w := w); [assumption|exact Hs|assumption|eapply HO; eassumption|].
    intros s1 A1 R1. destruct HV as [k0 tk dk v tv dv w1 w2 (n & _ & HI & _) LW _ _].
    eapply wp_conseq; [eapply look_named; [exact HI|exact LW|apply A1|rewrite R1; flat; reflexivity]| |auto]. cbn beta. auto.
Qed.

Lemma check_type_unit T s : inv T s -> (forall r, rest s <> c_lp :: r) ->
  wp (check_struct_type true false) (fun ty s1 => ty = SUnit /\ rest s1 = rest s /\ adv T s s1) (fun _ _ => False) s.
Proof.
  intros I0 NP. apply (check_type T s (fun t => t = SUnit)); [assumption|].
  unfold check_struct_type_inner. cbn [negb]. apply wp_bind.
  eapply wp_reads; [apply (reads_consume_char_false c_lp)|exact I0|symmetry; apply app_nil_l| |].
  - destruct (rest s) as [|d r]; [exact Logic.I|]. cbn. apply N.eqb_neq. intros ->. now apply (NP r).
  - intros s3 R3 A3. cbv iota. now apply wp_ret.
Qed.

(** ** Two runs side by side *)
Section K.
Variables k k' : str.
Hypothesis K : starts_not tok k.
Hypothesis K' : starts_not tok k'.

Definition sim (s s' : st) : Prop :=
  plain s /\ (nt s' = false /\ x_unwrap_variant_newtypes (ext s') = false) /\ lim s = lim s' /\ tracked s.
(** from [v ++ k'], too, [m'] reads what [m] reads from [v ++ k], if that
    leaves [k] alone and what is left before it is [Z] *)
Definition J {A} (Z : A -> str -> Prop) (m m' : M A) : Prop := forall T T' v v1 s a s1 s', inv T s -> inv T' s' -> sim s s' ->
  rest s = v ++ k -> rest s' = v ++ k' -> m s = Ok a s1 -> rest s1 = v1 ++ k -> Z a v1 ->
  exists s1', m' s' = Ok a s1' /\ rest s1' = v1 ++ k' /\ inv T' s1' /\ sim s1 s1'.
Definition any_end {A} (a : A) (v : str) : Prop := True.
Definition ne {A} (a : A) (v : str) : Prop := v <> [].
Definition before {A B} (Y : A -> str -> Prop) (f : A -> M B) (Z : B -> str -> Prop) : Prop := forall a T s b s1 v2 v1,
  inv T s -> plain s -> f a s = Ok b s1 -> rest s = v2 ++ k -> rest s1 = v1 ++ k -> Z b v1 -> Y a v2.

Lemma J_mono {A} (Z Z' : A -> str -> Prop) m m' : (forall a v, Z' a v -> Z a v) -> J Z m m' -> J Z' m m'.
Proof. intros H HJ T T' v v1 s a s1 s' I0 I0' SM Hs Hs' H1 R1 HZ. exact (HJ T T' v v1 s a s1 s' I0 I0' SM Hs Hs' H1 R1 (H a v1 HZ)). Qed.
Lemma J_bind {A B} (Y : A -> str -> Prop) (Z : B -> str -> Prop) m m' f f' : mv m -> (forall a, mv (f a)) -> before Y f Z ->
  J Y m m' -> (forall a, J Z (f a) (f' a)) -> J Z (bind m f) (bind m' f').
Proof.
  intros MM MF BE HM HF T T' v v1 s b s1 s' I0 I0' SM Hs Hs' H1 R1 HZ. apply bind_ok in H1 as (a & s2 & H2 & H1).
  destruct (proj2 MM T s a s2 I0 (proj1 SM) H2) as (I2 & S2 & F2 & L2 & N2).
  assert (P2 : plain s2) by (split; [assumption|rewrite F2; apply SM]).
  destruct (proj2 (MF a) T s2 b s1 I2 P2 H1) as (I1 & [x S1] & _). rewrite R1, app_assoc in S1.
  destruct (HM T T' v (x ++ v1) s a s2 s' I0 I0' SM Hs Hs' H2 S1) as (s2' & H2' & R2' & I2' & SM2).
  { eapply BE; [exact I2|exact P2|exact H1|exact S1|exact R1|exact HZ]. }
  destruct (HF a T T' (x ++ v1) v1 s2 b s1 s2' I2 I2' SM2 S1 R2' H1 R1 HZ) as (s1' & H1' & R1' & I1' & SM1).
  exists s1'. unfold bind. rewrite H2'. auto.
Qed.
Lemma before_any {A B} (f : A -> M B) Z : before any_end f Z.
Proof. repeat intro. exact Logic.I. Qed.
Lemma before_ne {A B} (f : A -> M B) (Z : B -> str -> Prop) : (forall b v, Z b v -> v <> []) -> (forall a, mv (f a)) -> before ne f Z.
Proof.
  intros HZ HF a T s b s1 v2 v1 I0 P H R2 R1 Z1 Q. subst v2. destruct (proj2 (HF a) T s b s1 I0 P H) as (_ & [x S] & _).
  cbn in R2. rewrite R2, R1 in S. apply (f_equal (@length char)) in S. rewrite !app_length in S. apply HZ in Z1. destruct v1; [contradiction|]. cbn in S. lia.
Qed.
Definition eat {A} (m : M A) : Prop := forall T s a s1, inv T s -> plain s -> m s = Ok a s1 -> (length (rest s1) < length (rest s))%nat.
Lemma before_eat {A B} (f : A -> M B) (Z : B -> str -> Prop) : (forall a, eat (f a)) -> before ne f Z.
Proof.
  intros HF a T s b s1 v2 v1 I0 P H R2 R1 Z1 Q. subst v2. assert (L := HF a T s b s1 I0 P H). cbn in R2.
  rewrite R2, R1, app_length in L. lia.
Qed.
Lemma J_bind_any {A B} (Z : B -> str -> Prop) (m m' : M A) f f' : mv m -> (forall a, mv (f a)) -> J any_end m m' -> (forall a, J Z (f a) (f' a)) ->
  J Z (bind m f) (bind m' f').
Proof. intros MM MF HM HF. eapply J_bind; [exact MM|exact MF|apply before_any|exact HM|exact HF]. Qed.
Lemma J_bind_ne {A B} (Z : B -> str -> Prop) (m m' : M A) f f' : (forall b v, Z b v -> v <> []) -> mv m -> (forall a, mv (f a)) -> J ne m m' -> (forall a, J Z (f a) (f' a)) ->
  J Z (bind m f) (bind m' f').
Proof. intros HZ MM MF HM HF. eapply J_bind; [exact MM|exact MF|now apply before_ne|exact HM|exact HF]. Qed.
Lemma J_bind_eat {A B} (Z : B -> str -> Prop) (m m' : M A) f f' : mv m -> (forall a, mv (f a)) -> (forall a, eat (f a)) -> J ne m m' -> (forall a, J Z (f a) (f' a)) ->
  J Z (bind m f) (bind m' f').
Proof. intros MM MF EA HM HF. eapply J_bind; [exact MM|exact MF|now apply before_eat|exact HM|exact HF]. Qed.

Lemma J_ret {A} Z (a : A) : J Z (ret a) (ret a).
Proof.
  intros T T' v v1 s b s1 s' I0 I0' SM Hs Hs' H1 R1 HZ. apply ret_ok in H1 as [-> ->]. rewrite Hs in R1. apply app_inv_tail in R1. subst v1.
  exists s'. auto.
Qed.
Lemma J_fail {A} Z x m' : J Z (@fail A x) m'.
Proof. intros T T' v v1 s b s1 s' I0 I0' SM Hs Hs' H1. discriminate. Qed.
Lemma J_oof {A} Z m' : J Z (@oof A) m'.
Proof. intros T T' v v1 s b s1 s' I0 I0' SM Hs Hs' H1. discriminate. Qed.
Lemma sim_adv T T' s s1 s' s1' : sim s s' -> adv T s s1 -> tracked s1 -> adv T' s' s1' -> sim s1 s1'.
Proof.
  intros ([P1 P2] & [Q1 Q2] & L & TR) A1 TR1 A1'. destruct (adv_keeps T s s1 A1) as (F1 & F2 & F3). destruct (adv_keeps T' s' s1' A1') as (G1 & G2 & G3).
  unfold sim, plain. rewrite F1, F2, F3, G1, G2, G3. auto 10.
Qed.
Lemma J_total {A} (Z : A -> str -> Prop) (m : M A) : total m -> keeps m ->
  (forall T T' v v1 s a s1 s', inv T s -> inv T' s' -> rest s = v ++ k -> m s = Ok a s1 -> rest s1 = v1 ++ k -> rest s' = v ++ k' -> Z a v1 ->
    exists s1', m s' = Ok a s1' /\ rest s1' = v1 ++ k') -> J Z m m.
Proof.
  intros TM KM H T T' v v1 s a s1 s' I0 I0' SM Hs Hs' H1 R1 HZ. destruct (H T T' v v1 s a s1 s' I0 I0' Hs H1 R1 Hs' HZ) as (s1' & H1' & R1').
  assert (A1 := total_ok _ _ _ _ _ TM I0 H1). assert (A1' := total_ok _ _ _ _ _ TM I0' H1'). exists s1'. split; [assumption|]. split; [assumption|].
  split; [apply A1'|]. eapply sim_adv; [exact SM|exact A1| |exact A1']. eapply keeps_ok; [exact KM|apply SM|exact H1].
Qed.
Lemma J_loc {A} Z (m : M A) : total m -> (forall s0, still s0 m) -> loc k k' m -> J Z m m.
Proof.
  intros TM ST L. apply J_total; [assumption|now apply keeps_still|]. intros T T' v v1 s a s1 s' I0 I0' Hs H1 R1 Hs' _.
  destruct (L T T' v v1 s a s1 s' I0 I0' Hs H1 R1 Hs') as (s1' & Q & R & _). eauto.
Qed.
Lemma J_par {A} Z (m : M A) : total m -> (forall s0, still s0 m) -> (forall v, parq k k' v m m) -> J Z m m.
Proof. intros TM ST P. apply J_loc; [assumption|assumption|]. now apply loc_par. Qed.
Lemma run_reads {A} (m : M A) t D a T s r : reads m t D a -> inv T s -> rest s = t ++ r -> D r -> exists s1, m s = Ok a s1 /\ rest s1 = r.
Proof.
  intros H I0 Hs Dr. specialize (H T s r I0 Hs Dr). Transparent wp. unfold wp in H. Opaque wp. destruct (m s) as [a' s1| | |]; try contradiction.
  destruct H as (-> & R & _). eauto.
Qed.
(** what is read from a literal does not depend on what follows *)
Lemma J_lit {A} Z (m : M A) (L : str -> A -> Prop) : total m -> (forall s0, still s0 m) ->
  (forall s a s1, m s = Ok a s1 -> exists t, rest s = t ++ rest s1 /\ L t a) -> (forall t a, L t a -> reads m t anything a) -> J Z m m.
Proof.
  intros TM ST SO RE. apply J_total; [assumption|now apply keeps_still|]. intros T T' v v1 s a s1 s' I0 I0' Hs H1 R1 Hs' _.
  destruct (SO s a s1 H1) as (t & Q & HL). rewrite Hs, R1, app_assoc in Q. apply app_inv_tail in Q. subst v. rewrite <- app_assoc in Hs'.
  exact (run_reads m t anything a T' s' _ (RE t a HL) I0' Hs' Logic.I).
Qed.
Lemma J_skip_ws : J ne skip_ws skip_ws.
Proof.
  apply J_total; [apply total_skip_ws|apply keeps_skip_ws|]. intros T T' v v1 s [] s1 s' I0 I0' Hs H1 R1 Hs' NE.
  apply skip_ws_sound in H1 as (w & Q & D). rewrite Hs, R1, app_assoc in Q. apply app_inv_tail in Q. subst v.
  destruct v1 as [|c v1]; [contradiction|]. rewrite R1 in D. destruct D as [[L S]|[D _]]; [|discriminate D].
  rewrite <- app_assoc in Hs'. apply (run_reads skip_ws w solid tt T' s'); [now apply reads_ws|assumption|assumption|exact S].
Qed.
Lemma J_consume_char c : J ne (consume_char c) (consume_char c).
Proof.
  apply J_total; [apply total_consume_char|apply keeps_still; auto with still|]. intros T T' v v1 s a s1 s' I0 I0' Hs H1 R1 Hs' NE.
  assert (C' := consume_char_eq c s'). rewrite consume_char_eq in H1. rewrite Hs in H1. rewrite Hs' in C'. destruct v as [|d v]; cbn [app] in *.
  - destruct k as [|d k0] eqn:QK.
    + injection H1 as <- <-. rewrite Hs in R1. destruct v1; [contradiction|discriminate].
    + exfalso. destruct (d =? c); injection H1 as <- <-; cbn in R1; [|rewrite Hs in R1]; apply (f_equal (@length char)) in R1;
      rewrite app_length in R1; cbn in R1; [lia|destruct v1; [contradiction|cbn in R1; lia]].
  - destruct (d =? c); injection H1 as <- <-; cbn in R1.
    + apply app_inv_tail in R1. subst v1. eexists. split; [exact C'|reflexivity].
    + rewrite Hs in R1. rewrite app_comm_cons in R1. apply app_inv_tail in R1. subst v1. eexists. split; [exact C'|assumption].
Qed.
Lemma J_check_char c : J ne (check_char c) (check_char c).
Proof.
  apply J_total; [apply total_check_char|apply keeps_still; auto with still|]. intros T T' v v1 s a s1 s' I0 I0' Hs H1 R1 Hs' NE.
  unfold check_char in H1. injection H1 as <- <-. rewrite Hs in R1. apply app_inv_tail in R1. subst v1. exists s'. split; [|assumption].
  unfold check_char. rewrite Hs, Hs'. destruct v; [contradiction|]. reflexivity.
Qed.
(** a closing bracket at the very end *)
Definition fin {A} (c : char) (a : A) (x : err) : M A := b <- consume_char c ;; if b then ret a else fail x.
Lemma eat_fin {A} c (a : A) x : eat (fin c a x).
Proof.
  intros T s b s1 I0 P H. unfold fin in H. apply bind_ok in H as (d & s2 & H2 & H). apply (consume_char_ok T) in H2 as (_ & Q); [|assumption].
  destruct d; [|discriminate]. apply ret_ok in H as [-> ->]. rewrite Q. cbn. lia.
Qed.
Lemma J_fin {A} Z c (a : A) x : J Z (fin c a x) (fin c a x).
Proof.
  intros T T' v v1 s b s1 s' I0 I0' SM Hs Hs' H1 R1 HZ. unfold fin in H1. apply bind_ok in H1 as (d & s2 & H2 & H1).
  destruct d; [|discriminate]. apply ret_ok in H1 as [-> ->].
  assert (TR2 := keeps_ok _ _ _ _ (keeps_still _ (fun s0 => still_consume_char s0 c)) (proj2 (proj2 (proj2 SM))) H2).
  apply (consume_char_ok T) in H2 as (A2 & Q); [|assumption]. rewrite Hs, R1 in Q.
  assert (v = c :: v1) by (apply (app_inv_tail k); exact Q). subst v. cbn [app] in Hs'.
  exists (moved (v1 ++ k') s'). unfold fin, bind. rewrite consume_char_eq, Hs', N.eqb_refl. split; [reflexivity|]. split; [reflexivity|].
  assert (A2' : adv T' s' (moved (v1 ++ k') s')) by (apply adv_moved; [assumption|rewrite Hs'; apply suf_cons]).
  split; [apply A2'|]. eapply sim_adv; eassumption.
Qed.
Lemma mv_fin {A} c (a : A) x : mv (fin c a x).
Proof. unfold fin. mvs. Qed.
Lemma J_guard {A} Z r (m m' : M A) : J Z m m' -> J Z (guard_with r m) (guard_with r m').
Proof.
  intros HJ T T' v v1 s a s1 s' I0 I0' SM Hs Hs' H1 R1 HZ. assert (SM0 := SM). destruct SM0 as (P & P' & L & TR).
  unfold guard_with in *. rewrite <- L. destruct (lim s) as [[|l]|]; [discriminate| |exact (HJ T T' v v1 s a s1 s' I0 I0' SM Hs Hs' H1 R1 HZ)].
  destruct (m (set_lim (Some l) s)) as [a' s2| | |] eqn:Q; try discriminate. injection H1 as <- <-.
  destruct (HJ T T' v v1 (set_lim (Some l) s) a' s2 (set_lim (Some l) s')) as (s2' & H2' & R2' & I2' & SM2); auto.
  { unfold sim. cbn. auto. }
  rewrite H2'. eexists. split; [reflexivity|]. cbn. split; [assumption|]. split; [assumption|].
  destruct SM2 as (P2 & P2' & L2 & TR2). unfold sim. cbn. rewrite L2. auto.
Qed.
Lemma J_map_err {A} Z f f' (m m' : M A) : J Z m m' -> J Z (map_err f m) (map_err f' m').
Proof.
  intros HJ T T' v v1 s a s1 s' I0 I0' SM Hs Hs' H1 R1 HZ. apply map_err_ok in H1.
  destruct (HJ T T' v v1 s a s1 s') as (s1' & H1' & Q); auto. exists s1'. split; [|assumption]. unfold map_err, try. now rewrite H1'.
Qed.
Lemma J_get {A} (Z : A -> str -> Prop) f f' : (forall s s', sim s s' -> J Z (f s) (f' s')) -> J Z (bind get f) (bind get f').
Proof. intros HF T T' v v1 s a s1 s' I0 I0' SM. exact (HF s s' SM T T' v v1 s a s1 s' I0 I0' SM). Qed.
Lemma J_modify {A} Z f f' (m m' : M A) : (forall s s', sim s s' -> sim (f s) (f' s')) -> (forall T s, inv T s -> inv T (f s)) -> (forall T s, inv T s -> inv T (f' s)) ->
  (forall s, rest (f s) = rest s) -> (forall s, rest (f' s) = rest s) -> J Z m m' -> J Z (modify f ;;; m) (modify f' ;;; m').
Proof.
  intros HS HI HI' HR HR' HJ T T' v v1 s a s1 s' I0 I0' SM Hs Hs' H1 R1 HZ. unfold bind, modify in *.
  refine (HJ T T' v v1 (f s) a s1 (f' s') (HI _ _ I0) (HI' _ _ I0') (HS _ _ SM) _ _ H1 R1 HZ); [now rewrite HR|now rewrite HR'].
Qed.
Lemma J_set_nt {A} Z (m m' : M A) : J Z m m' -> J Z (modify (set_nt false) ;;; m) (modify (set_nt false) ;;; m').
Proof. apply J_modify; auto. intros s s' ([P1 P2] & [Q1 Q2] & L & TR). unfold sim, plain. cbn. auto 10. Qed.
Lemma J_consume_ident Z w : forallb atok w = true -> J Z (consume_ident w) (consume_ident w).
Proof. intros W. apply J_par; [apply total_consume_ident|auto with still|]. intros v. apply par_consume_ident; auto using word_tok. Qed.
Lemma J_check_ident Z w : forallb atok w = true -> J Z (check_ident w) (check_ident w).
Proof.
  intros W. apply J_total; [apply total_check_ident|apply keeps_still; auto with still|]. intros T T' v v1 s a s1 s' I0 I0' Hs H1 R1 Hs' _.
  rewrite check_ident_eq in H1. injection H1 as <- <-. rewrite Hs in R1. apply app_inv_tail in R1. subst v1. exists s'. split; [|assumption].
  rewrite check_ident_eq, Hs, Hs', !ident_local; auto using word_tok.
Qed.
Lemma J_comma : J ne comma comma.
Proof.
  unfold comma. apply J_bind_ne; [auto|auto with mv| |apply J_skip_ws|]; [intros; mvs|]. intros _.
  apply J_bind_ne; [auto|auto with mv| |apply J_consume_char|]; [intros; mvs|]. intros []; [|apply J_ret].
  apply J_bind_ne; [auto|auto with mv| |apply J_skip_ws|]; [intros; mvs|]. intros _. apply J_ret.
Qed.

(** ** Elements *)
Lemma J_has_element t h : J ne (has_element t h) (has_element t h).
Proof.
  unfold has_element. apply J_bind_ne; [auto|auto with mv| |apply J_skip_ws|]; [intros; mvs|]. intros _.
  apply J_bind_ne; [auto|auto with mv| |apply J_check_char|]; [intros; mvs|]. intros b.
  destruct h; [apply J_ret|]. destruct b; [apply J_ret|apply J_fail].
Qed.
Section Elem.
Context {A : Type}.
Variables elem elem' : M A.
Hypothesis ME : mv elem.
Hypothesis HE : J ne elem elem'.
Lemma J_next_element t h : J ne (next_element t elem h) (next_element t elem' h).
Proof.
  unfold next_element. apply J_bind_ne; [auto|auto with mv| |apply J_has_element|]; [intros; mvs|]. intros []; [|apply J_ret].
  apply J_bind_ne; [auto|apply mv_guard, ME| |apply J_guard, HE|]; [intros; mvs|]. intros a.
  apply J_bind_ne; [auto|auto with mv| |apply J_comma|]; [intros; mvs|]. intros c. apply J_ret.
Qed.
Lemma comma_len T s s1 : inv T s -> comma s = Ok true s1 -> (length (rest s1) < length (rest s))%nat.
Proof.
  intros I0 H. apply (comma_ok T) in H as (_ & t & Q & w & w' & -> & _); [|assumption]. rewrite Q, !app_length. cbn. lia.
Qed.
Lemma next_element_len t h T s a c s1 : inv T s -> plain s -> next_element t elem h s = Ok (Some a, c) s1 ->
  h = true /\ (c = true -> (length (rest s1) < length (rest s))%nat).
Proof.
  intros I0 P H. unfold next_element in H. apply bind_ok in H as (b & s2 & H2 & H). assert (F2 := proj2 (mv_has_element t h) T s b s2 I0 P H2).
  destruct b; [|discriminate]. apply bind_ok in H as (a' & s3 & H3 & H).
  assert (F3 := proj2 (mv_guard false elem ME) T s2 a' s3 (proj1 F2) (fwd_plain T s s2 P F2) H3).
  apply bind_ok in H as (d & s4 & H4 & H). injection H as <- <- ->. split.
  - destruct h; [reflexivity|]. unfold has_element in H2. apply bind_ok in H2 as (? & ? & _ & H2). apply bind_ok in H2 as (t0 & ? & _ & H2). destruct t0; discriminate H2.
  - intros ->. apply (comma_len T) in H4; [|apply F3]. destruct F2 as (_ & S2 & _). destruct F3 as (_ & S3 & _). apply suf_length in S2, S3. lia.
Qed.
Lemma J_seq_loop t : forall n n' (h : bool) T T' v v1 s l s1 s', inv T s -> inv T' s' -> sim s s' -> rest s = v ++ k -> rest s' = v ++ k' ->
  ((if h then 2 + length v else 1) <= n')%nat -> seq_loop n t elem h s = Ok l s1 -> rest s1 = v1 ++ k -> v1 <> [] ->
  exists s1', seq_loop n' t elem' h s' = Ok l s1' /\ rest s1' = v1 ++ k' /\ inv T' s1' /\ sim s1 s1'.
Proof.
  induction n as [|n IH]; intros n' h T T' v v1 s l s1 s' I0 I0' SM Hs Hs' FU H R1 NE; [discriminate|].
  destruct n' as [|n']; [destruct h; lia|]. cbn [seq_loop] in *. apply bind_ok in H as (p & s2 & H2 & H).
  assert (F2 := proj2 (mv_next_element t elem h ME) T s p s2 I0 (proj1 SM) H2). assert (P2 := fwd_plain T s s2 (proj1 SM) F2).
  assert (EX : exists v2, rest s2 = v2 ++ k /\ v2 <> []).
  { destruct p as [[a|] c].
    - apply bind_ok in H as (l' & s3 & H3 & H). injection H as _ <-. destruct (proj2 (mv_seq_loop t elem n ME c) T s2 l' s3 (proj1 F2) P2 H3) as (_ & [x S3] & _).
      exists (x ++ v1). rewrite S3, R1, <- app_assoc. split; [reflexivity|]. destruct x; [assumption|discriminate].
    - injection H as _ <-. eauto. }
  destruct EX as (v2 & R2 & NE2).
  destruct (J_next_element t h T T' v v2 s p s2 s' I0 I0' SM Hs Hs' H2 R2 NE2) as (s2' & H2' & R2' & I2' & SM2).
  unfold bind. rewrite H2'. destruct p as [[a|] c].
  - destruct (next_element_len t h T s a c s2 I0 (proj1 SM) H2) as [-> LEN].
    apply bind_ok in H as (l' & s3 & H3 & H). injection H as <- <-.
    destruct (IH n' c T T' v2 v1 s2 l' s3 s2' (proj1 F2) I2' SM2 R2 R2') as (s3' & H3' & R3' & I3' & SM3); auto.
    { destruct c; [|lia]. specialize (LEN eq_refl). rewrite Hs, R2, !app_length in LEN. unfold str, char in *. lia. }
    rewrite H3'. exists s3'. auto.
  - injection H as <- <-. rewrite R1 in R2. apply app_inv_tail in R2. subst v2. exists s2'. auto.
Qed.
Lemma J_seq_all t : J ne (seq_all t elem) (seq_all t elem').
Proof.
  intros T T' v v1 s l s1 s' I0 I0' SM Hs Hs' H R1 NE. unfold seq_all in *. apply bind_ok in H as (r & s2 & H2 & H). apply src_ok in H2 as [-> ->].
  unfold bind, src. eapply J_seq_loop; [exact I0|exact I0'|exact SM|exact Hs|exact Hs'| |exact H|exact R1|exact NE].
  rewrite Hs', app_length. lia.
Qed.
End Elem.

(** before the colon of an entry *)
Definition colon {A} (a : A) (v : str) : Prop := exists w y, layout w /\ v = w ++ c_colon :: y.
Lemma colon_ne {A} (a : A) v : colon a v -> v <> [].
Proof. intros (w & y & _ & ->). now destruct w. Qed.
Section Entry.
Context {A B : Type}.
Variables (key key' : M A) (value value' : M B).
Hypothesis MK : mv key.
Hypothesis HK : J colon key key'.
Hypothesis MV : mv value.
Hypothesis HV : J ne value value'.
Definition key_end (o : option A) (v : str) : Prop := match o with Some a => colon a v | None => v <> [] end.
Lemma J_next_key t h : J key_end (next_key t key h) (next_key t key' h).
Proof.
  assert (NEE : forall b v, key_end b v -> v <> []) by (intros [a|] v H; [now apply (colon_ne a)|exact H]).
  unfold next_key. apply J_bind_ne; [exact NEE|auto with mv| |apply J_has_element|]; [intros; mvs|]. intros []; [|apply J_ret].
  apply J_bind with (Y := colon); [apply mv_guard, MK|intros; mvs| |apply J_guard, HK|intros; apply J_ret].
  intros a T s b s1 v2 v1 I0 P H R2 R1 Z. injection H as <- <-. rewrite R1 in R2. apply app_inv_tail in R2. subst v2. exact Z.
Qed.
Lemma J_next_value : J ne (next_value value) (next_value value').
Proof.
  unfold next_value. apply J_bind_ne; [auto|auto with mv| |apply J_skip_ws|]; [intros; mvs|]. intros _.
  apply J_bind_ne; [auto|auto with mv| |apply J_consume_char|]; [intros; mvs|]. intros []; [|apply J_fail].
  apply J_bind_ne; [auto|auto with mv| |apply J_skip_ws|]; [intros; mvs|]. intros _.
  apply J_bind_ne; [auto|apply mv_guard, MV| |apply J_guard, HV|]; [intros; mvs|]. intros a.
  apply J_bind_ne; [auto|auto with mv| |apply J_comma|]; [intros; mvs|]. intros c. apply J_ret.
Qed.
Lemma next_value_colon T s p s1 : inv T s -> plain s -> next_value value s = Ok p s1 ->
  exists w y, layout w /\ rest s = w ++ c_colon :: y ++ rest s1.
Proof.
  intros I0 P H. unfold next_value in H. apply bind_ok in H as (x & s2 & H2 & H). assert (F2 := proj2 mv_skip_ws T s x s2 I0 P H2).
  apply (skip_ws_ok T) in H2 as (_ & w & Q2 & L2); [|assumption]. apply bind_ok in H as (b & s3 & H3 & H).
  assert (F3 := proj2 (mv_consume_char _) T s2 b s3 (proj1 F2) (fwd_plain _ _ _ P F2) H3).
  apply (consume_char_ok T) in H3 as (_ & Q3); [|apply F2]. destruct b; [|discriminate]. rewrite Q3 in Q2, L2. apply lay_cons in L2.
  assert (MM : mv (skip_ws ;;; v <- guard value ;; c <- comma ;; ret (v, c))) by mvs.
  destruct (proj2 MM T s3 p s1 (proj1 F3) (fwd_plain _ _ _ (fwd_plain _ _ _ P F2) F3) H) as (_ & [y S] & _).
  exists w, y. split; [assumption|]. now rewrite Q2, S.
Qed.
Lemma next_key_had t h T s a s1 : inv T s -> plain s -> next_key t key h s = Ok (Some a) s1 -> h = true.
Proof.
  intros I0 P H. unfold next_key in H. apply bind_ok in H as (b & s2 & H2 & H). destruct b; [|discriminate]. destruct h; [reflexivity|].
  unfold has_element in H2. apply bind_ok in H2 as (? & ? & _ & H2). apply bind_ok in H2 as (t0 & ? & _ & H2). destruct t0; discriminate H2.
Qed.
Lemma J_map_loop t : forall n n' (h : bool) T T' v v1 s l s1 s', inv T s -> inv T' s' -> sim s s' -> rest s = v ++ k -> rest s' = v ++ k' ->
  ((if h then 2 + length v else 1) <= n')%nat -> map_loop n t key value h s = Ok l s1 -> rest s1 = v1 ++ k -> v1 <> [] ->
  exists s1', map_loop n' t key' value' h s' = Ok l s1' /\ rest s1' = v1 ++ k' /\ inv T' s1' /\ sim s1 s1'.
Proof.
  induction n as [|n IH]; intros n' h T T' v v1 s l s1 s' I0 I0' SM Hs Hs' FU H R1 NE; [discriminate|].
  destruct n' as [|n']; [destruct h; lia|]. cbn [map_loop] in *. apply bind_ok in H as (o & s2 & H2 & H).
  assert (F2 := proj2 (mv_next_key t key h MK) T s o s2 I0 (proj1 SM) H2). assert (P2 := fwd_plain T s s2 (proj1 SM) F2).
  destruct o as [a|].
  - assert (h = true) as -> by exact (next_key_had t h T s a s2 I0 (proj1 SM) H2).
    apply bind_ok in H as (p & s3 & H3 & H). assert (F3 := proj2 (mv_next_value value MV) T s2 p s3 (proj1 F2) P2 H3).
    assert (P3 := fwd_plain T s2 s3 P2 F3). apply bind_ok in H as (l' & s4 & H4 & H). injection H as <- <-.
    destruct (proj2 (mv_map_loop t key value n MK MV (snd p)) T s3 l' s4 (proj1 F3) P3 H4) as (_ & [x S4] & _). rewrite R1, app_assoc in S4.
    assert (NE3 : x ++ v1 <> []) by (destruct x; [assumption|discriminate]).
    destruct (next_value_colon T s2 p s3 (proj1 F2) P2 H3) as (w & y & LW & Q2). rewrite S4 in Q2.
    assert (R2 : rest s2 = (w ++ c_colon :: y ++ x ++ v1) ++ k) by (rewrite Q2; flat; reflexivity).
    destruct (J_next_key t true T T' v _ s (Some a) s2 s' I0 I0' SM Hs Hs' H2 R2) as (s2' & H2' & R2' & I2' & SM2).
    { exists w. eexists. split; [assumption|reflexivity]. }
    destruct (J_next_value T T' _ (x ++ v1) s2 p s3 s2' (proj1 F2) I2' SM2 R2 R2' H3 S4 NE3) as (s3' & H3' & R3' & I3' & SM3).
    destruct (IH n' (snd p) T T' (x ++ v1) v1 s3 l' s4 s3' (proj1 F3) I3' SM3 S4 R3') as (s4' & H4' & R4' & I4' & SM4); auto.
    { destruct F2 as (_ & S2 & _). apply suf_length in S2. rewrite R2, Hs, !app_length in S2. cbn [length] in S2. rewrite !app_length in S2.
      rewrite app_length. unfold str, char in *. destruct (snd p); lia. }
    exists s4'. unfold bind. rewrite H2', H3', H4'. auto.
  - injection H as <- <-. destruct (J_next_key t h T T' v v1 s None s2 s' I0 I0' SM Hs Hs' H2 R1 NE) as (s2' & H2' & Q).
    exists s2'. unfold bind. rewrite H2'. auto.
Qed.
Lemma J_map_all t : J ne (map_all t key value) (map_all t key' value').
Proof.
  intros T T' v v1 s l s1 s' I0 I0' SM Hs Hs' H R1 NE. unfold map_all in *. apply bind_ok in H as (r & s2 & H2 & H). apply src_ok in H2 as [-> ->].
  unfold bind, src. eapply J_map_loop; [exact I0|exact I0'|exact SM|exact Hs|exact Hs'| |exact H|exact R1|exact NE].
  rewrite Hs', app_length. lia.
Qed.
End Entry.

(** ** Brackets *)
Lemma J_bracket {A} Z (body body' : M A) c x : mv body -> J ne body body' ->
  J Z (v <- guard body ;; skip_ws ;;; fin c v x) (v <- guard body' ;; skip_ws ;;; fin c v x).
Proof.
  intros MB HB.
  assert (EA : forall v : A, eat (skip_ws ;;; fin c v x)).
  { intros v T s a s1 I0 P H. apply bind_ok in H as (y & s2 & H2 & H). assert (F2 := proj2 mv_skip_ws T s y s2 I0 P H2).
    assert (L := eat_fin c v x T s2 a s1 (proj1 F2) (fwd_plain _ _ _ P F2) H). destruct F2 as (_ & S2 & _). apply suf_length in S2. lia. }
  apply J_bind_eat; [apply mv_guard, MB| |exact EA|apply J_guard, HB|].
  - intros v. apply mv_bind; [auto with mv|]. intros _. apply mv_fin.
  - intros v. apply J_bind_eat; [auto with mv|intros; apply mv_fin|intros; apply eat_fin|apply J_skip_ws|intros; apply J_fin].
Qed.
(** an opening bracket: something more is read *)
Lemma J_open {A} Z c (m m' f f' : M A) : mv m -> mv f -> eat m -> J Z m m' -> (forall T s a s1, inv T s -> plain s -> f s = Ok a s1 -> False) ->
  J Z (b <- consume_char c ;; if b then m else f) (b <- consume_char c ;; if b then m' else f').
Proof.
  intros MM MF EM HM HF. apply J_bind_eat; [auto with mv|intros []; assumption| |apply J_consume_char|].
  - intros []; [exact EM|]. intros T s a s1 I0 P H. exfalso. eapply HF; eassumption.
  - intros []; [exact HM|]. intros T T' v v1 s a s1 s' I0 I0' SM Hs Hs' H. exfalso. eapply HF; [exact I0|apply SM|exact H].
Qed.
Lemma eat_bracket {A} (body : M A) c x : mv body -> eat (v <- guard body ;; skip_ws ;;; fin c v x).
Proof.
  intros MB T s a s1 I0 P H. apply bind_ok in H as (v & s2 & H2 & H). assert (F2 := proj2 (mv_guard false body MB) T s v s2 I0 P H2).
  assert (P2 := fwd_plain _ _ _ P F2). apply bind_ok in H as (y & s3 & H3 & H). assert (F3 := proj2 mv_skip_ws T s2 y s3 (proj1 F2) P2 H3).
  assert (L := eat_fin c v x T s3 a s1 (proj1 F3) (fwd_plain _ _ _ P2 F3) H). destruct F2 as (_ & S2 & _). destruct F3 as (_ & S3 & _).
  apply suf_length in S2, S3. lia.
Qed.
Lemma mv_bracket {A} (body : M A) c x : mv body -> mv (v <- guard body ;; skip_ws ;;; fin c v x).
Proof. intros MB. apply mv_bind; [now apply mv_guard|]. intros v. apply mv_bind; [auto with mv|]. intros _. apply mv_fin. Qed.
Lemma J_de_seq {A} Z (body body' : M A) : mv body -> J ne body body' -> J Z (de_seq body) (de_seq body').
Proof.
  intros MB HB. unfold de_seq. apply J_set_nt. apply (J_open Z c_lb); [now apply mv_bracket|auto with mv|now apply eat_bracket|now apply J_bracket|discriminate].
Qed.
Lemma J_de_map {A} Z (body body' : M A) : mv body -> J ne body body' -> J Z (de_map body) (de_map body').
Proof.
  intros MB HB. unfold de_map. apply J_set_nt. apply (J_open Z c_lc); [now apply mv_bracket|auto with mv|now apply eat_bracket|now apply J_bracket|discriminate].
Qed.
Lemma eat_set_nt {A} (m : M A) : eat m -> eat (modify (set_nt false) ;;; m).
Proof. intros H T s a s1 I0 P Q. refine (H T (set_nt false s) a s1 I0 _ Q). destruct P as [P1 P2]. split; [reflexivity|exact P2]. Qed.
Lemma J_de_tuple {A} Z (body body' : M A) : mv body -> J ne body body' -> J Z (de_tuple body) (de_tuple body').
Proof.
  intros MB HB. unfold de_tuple. apply J_get. intros s s' ([-> _] & [-> _] & _).
  apply (J_open Z c_lp); [apply mv_bind; [auto with mv|intros _; now apply mv_bracket]|auto with mv|now apply eat_set_nt, eat_bracket|now apply J_set_nt, J_bracket|discriminate].
Qed.
Lemma J_struct {A} Z (body body' : M A) : mv body -> J ne body body' -> J Z (struct_after_name [] body) (struct_after_name [] body').
Proof.
  intros MB HB. unfold struct_after_name. apply J_get. intros s s' ([-> _] & [-> _] & _). cbn [negb is_nil andb].
  apply (J_open Z c_lp); [apply mv_bind; [auto with mv|intros _; now apply mv_bracket, mv_map_err]|auto with mv|now apply eat_set_nt, eat_bracket, mv_map_err|now apply J_set_nt, J_bracket; [apply mv_map_err|apply J_map_err]|discriminate].
Qed.
Lemma eat_open {A} c (m : M A) x : mv m -> eat (b <- consume_char c ;; if b then m else fail x).
Proof.
  intros MM T s a s1 I0 P H. apply bind_ok in H as (b & s2 & H2 & H). assert (F2 := proj2 (mv_consume_char c) T s b s2 I0 P H2).
  apply (consume_char_ok T) in H2 as (_ & Q); [|assumption]. destruct b; [|discriminate].
  destruct (proj2 MM T s2 a s1 (proj1 F2) (fwd_plain _ _ _ P F2) H) as (_ & S1 & _). apply suf_length in S1. rewrite Q. cbn [length]. lia.
Qed.
Lemma eat_struct {A} (body : M A) : mv body -> eat (struct_after_name [] body).
Proof.
  intros MB T s a s1 I0 P H. unfold struct_after_name in H. apply bind_ok in H as (z & s2 & H2 & H). apply get_ok in H2 as [-> ->]. rewrite (proj1 P) in H. cbn [negb is_nil andb] in H.
  revert T s a s1 I0 P H. refine (eat_open c_lp _ _ _). apply mv_bind; [auto with mv|]. intros _. apply mv_bracket, mv_map_err, MB.
Qed.

(** ** Without a type *)
Lemma J_identifier : J colon de_identifier de_identifier.
Proof.
  assert (HI : J colon identifier identifier).
  { apply J_total; [apply eats_total, identifier_eats|apply keeps_still; auto with still|]. intros T T' v v1 s n s1 s' I0 I0' Hs H1 R1 Hs' (w & y & L & ->).
    apply (identifier_ok T) in H1 as (_ & t & Q & IL); [|assumption]. rewrite Hs, R1, app_assoc in Q. apply app_inv_tail in Q. subst v.
    rewrite <- app_assoc in Hs'. apply (run_reads identifier t ident_end n T' s'); [now apply reads_identifier|assumption|assumption|].
    apply delim_ident_end. rewrite <- app_assoc. apply layout_delim; [assumption|]. cbn. tauto. }
  unfold de_identifier. apply J_bind with (Y := colon); [apply mv_lex; [apply eats_total, identifier_eats|auto with still]| | |exact HI|].
  - intros id. apply mv_bind; [|intros _; apply mv_ret]. apply mv_modify; [intros s [P U]; cbn; repeat split; assumption|]. apply keeps_modify. intros s. cbn. auto.
  - intros a T s b s1 v2 v1 I0 P H R2 R1 Z. injection H as <- <-. cbn in R1. rewrite R1 in R2. apply app_inv_tail in R2. subst v2. exact Z.
  - intros id. apply J_modify; auto. apply J_ret.
Qed.
Definition nb (v : str) : M value :=
  if starts_with [c_b] v && negb (starts_with s_bsq v) then (b <- byte_string ;; ret (XBytes b))
  else if starts_with s_dotdoteq v then (consume_str s_dotdoteq ;;; e <- any_number ;; ret (range_entries [(s_end, e)]))
  else if starts_with s_dotdot v then
    (if match bdrop 2 v with Some (c :: _) => is_number_start c v | _ => false end
     then (consume_str s_dotdot ;;; e <- any_number ;; ret (range_entries [(s_end, e)]))
     else (consume_str s_dotdot ;;; ret XUnit))
  else (n <- any_number ;; float_range_or_value n).
Lemma nb_eq v r s : starts_not tok r -> rest s = v ++ r -> any_number_or_bytes s = nb v s.
Proof.
  intros NR Hs. unfold any_number_or_bytes, nb. unfold bind at 1, src at 1. rewrite Hs, !starts_local by (auto; now apply word_tok).
  destruct (starts_with [c_b] v) eqn:SB; cbn [andb].
  1: destruct (starts_with s_bsq v); cbn [negb].
  2: { unfold starts_with in SB. destruct (strip_prefix [c_b] v) as [q|] eqn:Q; [|discriminate]. apply strip_prefix_some in Q. subst v.
       unfold de_bytes, bind at 1, bind at 1, check_char. rewrite Hs. reflexivity. }
  all: unfold bind at 1, check_str, src; unfold bind at 1; rewrite Hs, starts_local by (auto; now apply word_tok); unfold ret at 1.
  all: destruct (starts_with s_dotdoteq v); [reflexivity|].
  all: unfold bind at 1, check_str, src; unfold bind at 1; rewrite Hs, starts_local by (auto; now apply word_tok); unfold ret at 1.
  all: destruct (starts_with s_dotdot v) eqn:DD; [|reflexivity].
  all: unfold starts_with in DD; destruct (strip_prefix s_dotdot v) as [q|] eqn:Q; [|discriminate]; apply strip_prefix_some in Q; subst v; clear DD.
  all: assert (BD : forall z, bdrop 2 (s_dotdot ++ z) = Some z) by (intros z; apply (bdrop_app s_dotdot)).
  all: rewrite <- app_assoc, !BD; unfold bind at 1, of_slice, ret at 1.
  all: assert (NE : match q ++ r with [] => false | c :: _ => is_number_start c (s_dotdot ++ q ++ r) end = match q with c :: _ => is_number_start c (s_dotdot ++ q) | [] => false end);
    [destruct q as [|c q];
      [cbn [app]; destruct r as [|c r]; [reflexivity|]; cbn in NR; destruct (is_number_start c (s_dotdot ++ c :: r)) eqn:NS; [apply first_tok in NS; congruence|reflexivity]
      |change (is_number_start c (s_dotdot ++ (c :: q) ++ r) = is_number_start c (s_dotdot ++ c :: q)); rewrite app_assoc; unfold is_number_start; now rewrite !starts_local by (auto; now apply word_tok)]
    |rewrite NE; destruct q as [|c q]; [reflexivity|destruct (is_number_start c _); reflexivity]].
Qed.
Lemma J_number Z : J Z any_number any_number.
Proof. apply J_loc; [apply total_any_number|auto with still|now apply loc_any_number]. Qed.
Lemma mv_any_number : mv any_number.
Proof. apply mv_lex; [apply total_any_number|auto with still]. Qed.
Lemma mv_byte_string : mv byte_string.
Proof. apply mv_lex; [apply total_byte_string|auto with still]. Qed.
#[local] Hint Resolve mv_any_number mv_byte_string : mv.
Lemma J_number_or_bytes Z : J Z any_number_or_bytes any_number_or_bytes.
Proof.
  intros T T' v v1 s x s1 s' I0 I0' SM Hs Hs' H1 R1 HZ. rewrite (nb_eq v k s K Hs) in H1. setoid_rewrite (nb_eq v k' s' K' Hs').
  assert (CS : forall w, forallb atok w = true -> J any_end (consume_str w) (consume_str w)).
  { intros w W. apply J_loc; [apply total_consume_str|auto with still|]. apply loc_consume_str; auto using word_tok. }
  assert (HJ : J Z (nb v) (nb v)).
  { unfold nb.
    assert (NV : forall f : num -> value, J Z (e <- any_number ;; ret (f e)) (e <- any_number ;; ret (f e))).
    { intros f. apply J_bind_any; [auto with mv|intros; mvs|apply J_number|intros; apply J_ret]. }
    destruct (_ && _); [|destruct (starts_with s_dotdoteq v); [|destruct (starts_with s_dotdot v); [destruct (match bdrop 2 v with Some _ => _ | None => _ end)|]]].
    - apply J_bind_any; [auto with mv|intros; mvs| |intros; apply J_ret].
      apply J_lit with (L := bytes_lit); [apply total_byte_string|auto with still|apply byte_string_sound|apply reads_bytes].
    - apply J_bind_any; [auto with mv|intros; mvs|now apply CS|intros _; apply (NV (fun e => range_entries _))].
    - apply J_bind_any; [auto with mv|intros; mvs|now apply CS|intros _; apply (NV (fun e => range_entries _))].
    - apply J_bind_any; [auto with mv|intros; mvs|now apply CS|intros _; apply J_ret].
    - apply J_bind_any; [auto with mv|intros; mvs|apply J_number|intros; apply J_loc; [apply total_float_range|auto with still|now apply loc_range]]. }
  exact (HJ T T' v v1 s x s1 s' I0 I0' SM Hs Hs' H1 R1 HZ).
Qed.
Lemma eat_bind_r {A B} (m : M A) (f : A -> M B) : mv m -> (forall a, eat (f a)) -> eat (bind m f).
Proof.
  intros MM EF T s b s1 I0 P H. apply bind_ok in H as (a & s2 & H2 & H). assert (F2 := proj2 MM T s a s2 I0 P H2).
  assert (L := EF a T s2 b s1 (proj1 F2) (fwd_plain _ _ _ P F2) H). destruct F2 as (_ & S2 & _). apply suf_length in S2. lia.
Qed.
Lemma mv_unwrap : mv (modify (fun s => set_nt (x_unwrap_variant_newtypes (ext s)) s)).
Proof. apply mv_modify; [intros s [P [U _]]; cbn; rewrite U; repeat split|]. apply keeps_modify. intros s. cbn. auto. Qed.
#[local] Hint Resolve mv_unwrap mv_fin : mv.
Lemma J_de_option {A} Z (a : A) (m m' : M A) : mv m -> J ne m m' -> J Z (de_option a m) (de_option a m').
Proof.
  intros MM HM. unfold de_option.
  assert (MT : forall n : bool, mv (if n then ret a else
    sm <- consume_ident s_Some ;; op <- (if sm then skip_ws ;;; consume_char c_lp else ret false) ;;
    if op then
      skip_ws ;;;
      modify (fun s => set_nt (x_unwrap_variant_newtypes (ext s)) s) ;;;
      v <- guard m ;;
      modify (set_nt false) ;;;
      comma ;;;
      c <- consume_char c_rp ;;
      if c then ret v else fail EExpectedOptionEnd
    else
      s <- get ;;
      if x_implicit_some (ext s) then guard_r m else fail EExpectedOption)).
  { intros []; [auto with mv|]. apply mv_bind; [auto with mv|]. intros sm. apply mv_bind; [destruct sm; mvs|]. intros [].
    - mvs.
    - apply mv_get.
      + intros s P. destruct (x_implicit_some (ext s)); mvs.
      + intros s. destruct (x_implicit_some (ext s)); [apply keeps_guard, MM|apply keeps_still; auto with still]. }
  apply J_bind_any; [auto with mv|exact MT|now apply J_consume_ident|]. intros []; [apply J_ret|].
  assert (IN : forall op : bool, let m0 := if op then
      skip_ws ;;;
      modify (fun s => set_nt (x_unwrap_variant_newtypes (ext s)) s) ;;;
      v <- guard m ;;
      modify (set_nt false) ;;;
      comma ;;;
      fin c_rp v EExpectedOptionEnd
    else
      s <- get ;;
      if x_implicit_some (ext s) then guard_r m else fail EExpectedOption in mv m0 /\ eat m0).
  { intros []; cbv zeta.
    - split; [mvs|]. apply eat_bind_r; [auto with mv|]. intros _. apply eat_bind_r; [auto with mv|]. intros _. apply eat_bind_r; [now apply mv_guard|]. intros v.
      apply eat_bind_r; [auto with mv|]. intros _. apply eat_bind_r; [auto with mv|]. intros _. apply eat_fin.
    - split.
      + apply mv_get.
        * intros s P. destruct (x_implicit_some (ext s)); mvs.
        * intros s. destruct (x_implicit_some (ext s)); [apply keeps_guard, MM|apply keeps_still; auto with still].
      + intros T s b s1 I0 [P [U IM]] H. unfold bind, get in H. rewrite IM in H. discriminate. }
  apply J_bind_any; [auto with mv| |now apply J_consume_ident|].
  { intros sm. apply mv_bind; [destruct sm; mvs|]. apply IN. }
  intros sm. apply J_bind_eat; [destruct sm; mvs|apply IN|apply IN| |].
  - destruct sm; [|apply J_ret]. apply J_bind_ne; [auto|auto with mv|intros; mvs|apply J_skip_ws|intros _; apply J_consume_char].
  - intros [].
    + assert (E1 : forall v : A, eat (comma ;;; fin c_rp v EExpectedOptionEnd)) by (intros v; apply eat_bind_r; [auto with mv|intros _; apply eat_fin]).
      assert (E2 : forall v : A, eat (modify (set_nt false) ;;; comma ;;; fin c_rp v EExpectedOptionEnd)) by (intros v; apply eat_bind_r; [auto with mv|intros _; apply E1]).
      assert (E3 : eat (v <- guard m ;; modify (set_nt false) ;;; comma ;;; fin c_rp v EExpectedOptionEnd)) by (apply eat_bind_r; [now apply mv_guard|apply E2]).
      apply J_bind_eat; [auto with mv|intros; mvs|intros _; apply eat_bind_r; [auto with mv|intros _; exact E3]|apply J_skip_ws|]. intros _.
      apply J_modify; auto.
      { intros s s' ([P1 [P2 P3]] & [Q1 Q2] & L & TR). unfold sim, plain. cbn. auto 10. }
      apply J_bind_eat; [now apply mv_guard|intros; mvs|apply E2|apply J_guard, HM|]. intros v. apply J_set_nt.
      apply J_bind_eat; [auto with mv|intros; mvs|intros _; apply eat_fin|apply J_comma|]. intros _. apply J_fin.
    + intros T T' v v1 s x s1 s' I0 I0' ([P1 [P2 P3]] & _) Hs Hs' H. unfold bind, get in H. rewrite P3 in H. discriminate.
Qed.

Section Any.
Variable any : M value.
Hypothesis MA : mv any.
Hypothesis HA : J ne any any.
Hypothesis GA : forall e b, reads_from e Keep.ready b any (vacc e b).

Definition seq_part : M value := de_tuple (l <- seq_all c_rp any ;; ret (XSeq l)).
Definition map_part : M value := struct_after_name [] (l <- map_all c_rp (k <- de_identifier ;; ret (XStr k)) any ;; ret (XMap l)).
Lemma mv_seq_part : mv seq_part.
Proof. unfold seq_part. apply mv_de_tuple. apply mv_bind; [now apply mv_seq_all|auto with mv]. Qed.
Lemma mv_map_part : mv map_part.
Proof. unfold map_part. apply mv_struct. apply mv_bind; [apply mv_map_all; [mvs|assumption]|auto with mv]. Qed.
Lemma J_seq_body t (f : list value -> value) : J ne (l <- seq_all t any ;; ret (f l)) (l <- seq_all t any ;; ret (f l)).
Proof. apply J_bind_ne; [auto|now apply mv_seq_all|intros; mvs|now apply J_seq_all|intros; apply J_ret]. Qed.
Lemma J_seq_part Z : J Z seq_part seq_part.
Proof. unfold seq_part. apply J_de_tuple; [apply mv_bind; [now apply mv_seq_all|auto with mv]|apply J_seq_body]. Qed.
Lemma J_map_part Z : J Z map_part map_part.
Proof.
  assert (MK : mv (k <- de_identifier ;; ret (XStr k))) by mvs.
  unfold map_part. apply J_struct; [apply mv_bind; [now apply mv_map_all|auto with mv]|].
  apply J_bind_ne; [auto|now apply mv_map_all|intros; mvs| |intros; apply J_ret]. apply J_map_all; [exact MK| |exact MA|exact HA].
  apply J_bind with (Y := colon); [auto with mv|intros; mvs| |apply J_identifier|intros; apply J_ret].
  intros a T s b s1 v2 v1 I0 P H R2 R1 ZZ. injection H as <- <-. rewrite R1 in R2. apply app_inv_tail in R2. subst v2. exact ZZ.
Qed.

(** the struct-like branch, where something is in parentheses *)
Definition any_struct0 : M value :=
  t <- check_struct_type true false ;;
  match t with SUnit => fail EEof | Named => map_part | _ => seq_part end.
Lemma any_struct0_run s x s1 : any_struct0 s = Ok x s1 -> any_struct any s = Ok x s1.
Proof.
  intros H. unfold any_struct0 in H. unfold any_struct. apply bind_ok in H as (t & s2 & H2 & H). unfold bind. rewrite H2. destruct t; try exact H. discriminate.
Qed.
Lemma any_struct_text_of T s x s1 : inv T s -> plain s -> tracked s -> any_struct any s = Ok x s1 -> (exists r, rest s = c_lp :: r) ->
  exists w t w' w2, rest s = c_lp :: w ++ t ++ w' ++ c_rp :: w2 ++ rest s1 /\ layout w /\ layout w' /\
    ((exists l d, sepd (vacc (ext s) false) l t d) \/ (exists l d, sepd (pair_text key_text (vacc (ext s) false)) l t d)).
Proof.
  intros I0 P TR H [r HR].
  destruct (any_struct_ok (ext s) any (GA (ext s)) T s x s1 I0 TR eq_refl (proj1 P) H) as (_ & [(_ & _ & NP)|(t & w & d & Q & _ & _ & HT)]).
  { now apply NP in HR. }
  destruct HT as [(t' & d' & PA & (l & _ & HS) & _)|(t' & d' & PA & (l & _ & HS) & _)]; inversion PA as [w0 t0 w0' L L' Q0 Q1|]; subst;
  exists w0, t', w0', w; (split; [rewrite Q; flat; reflexivity|]); eauto 8.
Qed.
Lemma any_struct_open s t s2 : rest s <> [] -> check_struct_type true false s = Ok t s2 -> (forall r, rest s <> c_lp :: r) -> t = SUnit.
Proof.
  intros NE H NP. unfold check_struct_type in H. apply bind_ok in H as (c & s3 & H3 & H). apply bind_ok in H as (t' & s4 & H4 & H).
  unfold get_cursor_m in H3. injection H3 as <- <-. apply bind_ok in H as (y & s5 & _ & H). injection H as <- <-.
  unfold check_struct_type_inner in H4. cbn [negb] in H4. cbv zeta in H4. apply bind_ok in H4 as (b & s6 & H6 & H4). rewrite consume_char_eq in H6.
  destruct (rest s) as [|d r] eqn:HR; [contradiction|]. destruct (d =? c_lp) eqn:Q; [apply N.eqb_eq in Q; subst d; now specialize (NP r)|].
  injection H6 as <- <-. now injection H4 as <- <-.
Qed.
Lemma J_struct0 Z : J Z any_struct0 (any_struct any).
Proof.
  intros T T' v v1 s x s1 s' I0 I0' SM Hs Hs' H1 R1 HZ. assert (HF := any_struct0_run s x s1 H1).
  unfold any_struct0 in H1. apply bind_ok in H1 as (ty & s2 & H2 & H1).
  destruct (check_struct_type_ok true false T s ty s2 I0 H2) as [A2 RS].
  assert (TR2 := keeps_ok _ _ _ _ (keeps_struct_type _ _) (proj2 (proj2 (proj2 SM))) H2).
  assert (OP : exists r, rest s = c_lp :: r).
  { destruct (rest s) as [|d r] eqn:HR.
    - exfalso. apply bind_ok in H2 as (c & s3 & H3 & H2). injection H3 as <- <-. apply bind_ok in H2 as (t' & s4 & H4 & H2).
      apply bind_ok in H2 as (y & s5 & _ & H2). injection H2 as <- <-. unfold check_struct_type_inner in H4. cbn [negb] in H4. cbv zeta in H4.
      apply bind_ok in H4 as (b & s6 & H6 & H4). rewrite consume_char_eq, HR in H6. injection H6 as <- <-. injection H4 as <- <-. discriminate.
    - destruct (N.eq_dec d c_lp) as [->|ND]; [now exists r|]. exfalso. rewrite (any_struct_open s ty s2) in H1; [discriminate| |exact H2|]; rewrite HR; [discriminate|congruence]. }
  destruct (any_struct_text_of T s x s1 I0 (proj1 SM) (proj2 (proj2 (proj2 SM))) HF OP) as (w & t & w' & w2 & Q & L & L' & HT).
  destruct (class_found (ext s) w t w' (proj1 (proj2 (proj1 SM))) (proj2 (proj2 (proj1 SM))) L L' HT) as (P & HP & CL).
  assert (C1 := CL T s _ I0 Q). Transparent wp. unfold wp in C1. rewrite H2 in C1. destruct C1 as (PT & _).
  assert (QV : v = c_lp :: w ++ t ++ w' ++ c_rp :: w2 ++ v1).
  { apply (app_inv_tail k). rewrite <- Hs, Q, R1. flat. reflexivity. }
  assert (Q' : rest s' = c_lp :: w ++ t ++ w' ++ c_rp :: w2 ++ v1 ++ k') by (rewrite Hs', QV; flat; reflexivity).
  assert (C1' := CL T' s' _ I0' Q'). unfold wp in C1'. Opaque wp. unfold any_struct, bind.
  destruct (check_struct_type true false s') as [ty' s2'| | |]; try contradiction. destruct C1' as (PT' & RS' & A2').
  assert (SM2 : sim s2 s2') by (eapply sim_adv; eassumption).
  assert (HS : J Z seq_part seq_part) by apply J_seq_part. assert (HM : J Z map_part map_part) by apply J_map_part.
  assert (I2 := adv_inv _ _ _ A2). assert (I2' := adv_inv _ _ _ A2').
  rewrite Hs in RS. rewrite Hs' in RS'.
  destruct HP as [-> | ->].
  - assert (HX : seq_part s2 = Ok x s1) by (destruct PT as [-> |[-> |[-> | ->]]]; exact H1).
    destruct (HS T T' v v1 s2 x s1 s2' I2 I2' SM2 RS RS' HX R1 HZ) as (s1' & H1' & B1).
    exists s1'. split; [|exact B1]. destruct PT' as [-> |[-> |[-> | ->]]]; exact H1'.
  - subst ty ty'. destruct (HM T T' v v1 s2 x s1 s2' I2 I2' SM2 RS RS' H1 R1 HZ) as (s1' & H1' & B1).
    exists s1'. split; [|exact B1]. exact H1'.
Qed.
Lemma mv_struct_any : mv (any_struct any).
Proof.
  unfold any_struct. apply mv_bind; [apply mv_struct_type|]. intros []; (apply mv_ret || apply mv_map_part || apply mv_seq_part).
Qed.
Lemma mv_struct0 : mv any_struct0.
Proof.
  unfold any_struct0. apply mv_bind; [apply mv_struct_type|]. intros []; (apply mv_fail || apply mv_map_part || apply mv_seq_part).
Qed.
Lemma eat_seq_part : eat seq_part.
Proof.
  unfold seq_part, de_tuple. intros T s a s1 I0 P H. apply bind_ok in H as (z & s2 & H2 & H). apply get_ok in H2 as [-> ->]. rewrite (proj1 P) in H.
  revert T s a s1 I0 P H. refine (eat_open c_lp _ _ _). apply mv_bind; [auto with mv|]. intros _. apply mv_bracket. apply mv_bind; [now apply mv_seq_all|auto with mv].
Qed.
Lemma eat_struct0 : eat any_struct0.
Proof.
  intros T s x s1 I0 P H. assert (H0 := H). unfold any_struct0 in H0. apply bind_ok in H0 as (ty & s2 & H2 & H0).
  assert (F2 := proj2 mv_struct_type T s ty s2 I0 P H2). assert (L2 := proj1 (proj2 F2)). apply suf_length in L2.
  assert (P2 := fwd_plain _ _ _ P F2).
  assert (EM : eat map_part).
  { unfold map_part. apply eat_struct. apply mv_bind; [apply mv_map_all; [mvs|assumption]|auto with mv]. }
  destruct ty; try discriminate H0; first [assert (Q := EM T s2 x s1 (proj1 F2) P2 H0); lia|assert (Q := eat_seq_part T s2 x s1 (proj1 F2) P2 H0); lia].
Qed.
Lemma J_struct_ne : J ne (any_struct any) (any_struct any).
Proof.
  intros T T' v v1 s x s1 s' I0 I0' SM Hs Hs' H1 R1 NE. assert (F1 := proj2 mv_struct_any T s x s1 I0 (proj1 SM) H1).
  assert (VN : v <> []).
  { intros ->. destruct F1 as (_ & [u Q] & _). rewrite Hs, R1 in Q. cbn [app] in Q. apply (f_equal (@length char)) in Q. rewrite !app_length in Q.
    destruct v1; [now apply NE|]. cbn in Q. lia. }
  destruct v as [|c v]; [contradiction|]. destruct (N.eq_dec c c_lp) as [->|NC].
  - refine (J_struct0 ne T T' _ v1 s x s1 s' I0 I0' SM Hs Hs' _ R1 NE). unfold any_struct in H1. unfold any_struct0.
    apply bind_ok in H1 as (ty & s2 & H2 & H1). unfold bind. rewrite H2. destruct ty; try exact H1.
    exfalso. eapply check_struct_type_unit; [|exact H2]. exact Hs.
  - apply bind_ok in H1 as (ty & s2 & H2 & H1). assert (NP : forall q r, c :: q <> c_lp :: r) by congruence.
    assert (ty = SUnit).
    { eapply any_struct_open; [|exact H2|]; rewrite Hs; [discriminate|apply NP]. }
    subst ty. apply ret_ok in H1 as [-> ->]. destruct (check_struct_type_ok true false T s SUnit s2 I0 H2) as [A2 RS].
    assert (TR2 := keeps_ok _ _ _ _ (keeps_struct_type _ _) (proj2 (proj2 (proj2 SM))) H2).
    assert (W : wp (check_struct_type true false) (fun ty s1 => ty = SUnit /\ rest s1 = rest s' /\ adv T' s' s1) (fun _ _ => False) s').
    { apply check_type_unit; [assumption|]. rewrite Hs'. apply NP. }
    Transparent wp. unfold wp in W. Opaque wp. unfold any_struct, bind. destruct (check_struct_type true false s') as [ty s2'| | |]; try contradiction.
    destruct W as (-> & RS' & A2'). exists s2'. split; [reflexivity|]. rewrite Hs in RS. rewrite R1 in RS. apply app_inv_tail in RS. subst v1.
    split; [now rewrite RS'|]. split; [apply A2'|]. eapply sim_adv; eassumption.
Qed.

(** the whole of deserialize_any, with the struct-like branch left open *)
Definition branch (stct : M value) (c : char) : M value :=
  if c =? c_lp then stct
  else if c =? c_lb then de_seq (l <- seq_all c_rb any ;; ret (XSeq l))
  else if c =? c_lc then de_map (l <- map_all c_rc any any ;; ret (XMap l))
  else if is_digit c || (c =? c_plus) || (c =? c_minus) || (c =? c_dot) || (c =? c_b)
  then any_number_or_bytes
  else if (c =? c_dq) || (c =? c_r) then (s <- parse_string ;; ret (XStr s))
  else if c =? c_sq then (c <- parse_char ;; ret (XChar c))
  else fail (EUnexpectedChar c).
Definition gen_tail (stct : M value) : M value :=
  id <- skip_identifier ;;
  match id with
  | Some _ => skip_ws ;;; stct
  | None => c <- peek_char_or_eof ;; branch stct c
  end.
Definition gen_float (stct : M value) : M value :=
  b <- consume_ident s_inf ;;
  b <- (if b then ret true else consume_ident s_inff32) ;;
  if b then float_range_or_value (NFloat F32 (f_inf F32)) else
  b <- consume_ident s_inff64 ;;
  if b then float_range_or_value (NFloat F64 (f_inf F64)) else
  b <- consume_ident s_NaN ;;
  b <- (if b then ret true else consume_ident s_NaNf32) ;;
  if b then float_range_or_value (NFloat F32 (f_nan F32)) else
  b <- consume_ident s_NaNf64 ;;
  if b then float_range_or_value (NFloat F64 (f_nan F64)) else
  gen_tail stct.
Definition any_gen (stct : M value) : M value :=
  b <- consume_ident s_true ;;
  if b then ret (XBool true) else
  b <- consume_ident s_false ;;
  if b then ret (XBool false) else
  b <- check_ident s_Some ;;
  if b then de_option XNone (v <- any ;; ret (XSome v)) else
  b <- consume_ident s_None ;;
  if b then ret XNone else
  b <- consume_str s_unit ;;
  if b then ret XUnit else gen_float stct.
Lemma any_main_gen : any_main any = any_gen (any_struct any).
Proof. reflexivity. Qed.
#[local] Hint Resolve mv_number_or_bytes mv_string mv_char : mv.
Lemma mv_branch stct c : mv stct -> mv (branch stct c).
Proof.
  intros MS. unfold branch. destruct (c =? c_lp); [assumption|]. destruct (c =? c_lb); [apply mv_de_seq, mv_bind; [now apply mv_seq_all|auto with mv]|].
  destruct (c =? c_lc); [apply mv_de_map, mv_bind; [now apply mv_map_all|auto with mv]|]. destruct (is_digit c || _ || _ || _ || _); [auto with mv|].
  destruct (_ || _); [mvs|]. destruct (_ =? _); mvs.
Qed.
Lemma mv_gen_tail stct : mv stct -> mv (gen_tail stct).
Proof.
  intros MS. unfold gen_tail. apply mv_bind; [auto with mv|]. intros [|]; (apply mv_bind; [auto with mv|]); intros; [assumption|now apply mv_branch].
Qed.
Lemma mv_gen_float stct : mv stct -> mv (gen_float stct).
Proof.
  intros MS. assert (MT := mv_gen_tail stct MS). unfold gen_float. repeat (cbv iota; first [assumption|solve [auto with mv]|apply mv_bind; [|intros []]]).
Qed.
Lemma mv_any_gen stct : mv stct -> mv (any_gen stct).
Proof.
  intros MS. assert (MT := mv_gen_float stct MS). unfold any_gen.
  assert (MO : mv (de_option XNone (v <- any ;; ret (XSome v)))) by (apply mv_de_option; mvs).
  repeat (cbv iota; first [assumption|solve [auto with mv]|apply mv_bind; [|intros []]]).
Qed.

Definition Jv {A} (v : str) (Z : A -> str -> Prop) (m m' : M A) : Prop := forall T T' v1 s a s1 s', inv T s -> inv T' s' -> sim s s' ->
  rest s = v ++ k -> rest s' = v ++ k' -> m s = Ok a s1 -> rest s1 = v1 ++ k -> Z a v1 ->
  exists s1', m' s' = Ok a s1' /\ rest s1' = v1 ++ k' /\ inv T' s1' /\ sim s1 s1'.
Lemma Jv_J {A} v Z (m m' : M A) : J Z m m' -> Jv v Z m m'.
Proof. intros HJ T T' v1 s a s1 s'. apply HJ. Qed.
Lemma Jv_ident {A} v (Z : A -> str -> Prop) w f f' : forallb atok w = true -> mv (f true) -> J Z (f true) (f' true) -> Jv v Z (f false) (f' false) ->
  Jv v Z (bind (consume_ident w) f) (bind (consume_ident w) f').
Proof.
  intros W MF HT HF T T' v1 s a s1 s' I0 I0' SM Hs Hs' H1 R1 HZ.
  destruct (ident_at w v) eqn:Q.
  - apply bind_ok in H1 as (b & s2 & H2 & H1). assert (F2 := proj2 (mv_consume_ident w) T s b s2 I0 (proj1 SM) H2).
    assert (b = true) as ->. { rewrite consume_ident_eq, Hs, ident_local, Q in H2 by auto using word_tok. destruct (strip_prefix _ _); [now injection H2|discriminate]. }
    destruct (proj2 MF T s2 a s1 (proj1 F2) (fwd_plain _ _ _ (proj1 SM) F2) H1) as (_ & [x S1] & _). rewrite R1, app_assoc in S1.
    destruct (J_consume_ident any_end w W T T' v (x ++ v1) s true s2 s' I0 I0' SM Hs Hs' H2 S1 Logic.I) as (s2' & H2' & R2' & I2' & SM2).
    destruct (HT T T' (x ++ v1) v1 s2 a s1 s2' (proj1 F2) I2' SM2 S1 R2' H1 R1 HZ) as (s1' & H1' & B).
    exists s1'. split; [|exact B]. unfold bind. now rewrite H2'.
  - unfold bind in *. rewrite consume_ident_false in H1 by (rewrite Hs, ident_local; auto using word_tok).
    rewrite consume_ident_false by (rewrite Hs', ident_local; auto using word_tok).
    exact (HF T T' v1 s a s1 s' I0 I0' SM Hs Hs' H1 R1 HZ).
Qed.
(** an opening parenthesis is not left alone *)
Definition deep (m : M value) : Prop := forall T s a s1 r, inv T s -> plain s -> tracked s -> rest s = c_lp :: r -> m s = Ok a s1 -> (length (rest s1) < length r)%nat.
Lemma gen_float_lp stct s r : rest s = c_lp :: r -> gen_float stct s = stct s.
Proof.
  intros Hs. unfold gen_float.
  assert (CI : forall w, In w keywords -> consume_ident w s = Ok false s).
  { intros w IN. apply consume_ident_false. rewrite Hs. apply no_word_head; [cbn; intuition discriminate|assumption]. }
  unfold bind at 1. rewrite CI by (cbn; tauto). unfold bind at 1. rewrite CI by (cbn; tauto).
  unfold bind at 1. rewrite CI by (cbn; tauto). unfold bind at 1. rewrite CI by (cbn; tauto). unfold bind at 1. rewrite CI by (cbn; tauto).
  unfold bind at 1. rewrite CI by (cbn; tauto). unfold gen_tail. unfold bind at 1.
  rewrite (noid_head c_lp [] ltac:(now apply not_first) ltac:(discriminate) s r Hs).
  unfold bind at 1, peek_char_or_eof, bind, peek_char. rewrite Hs. reflexivity.
Qed.

Section Gen.
Variables stct : M value.
Variable Z : value -> str -> Prop.
Hypothesis MS : mv stct.
Hypothesis DS : deep stct.
Hypothesis HS : J Z stct (any_struct any).
Hypothesis HWS : J Z (skip_ws ;;; stct) (skip_ws ;;; any_struct any).
Lemma J_branch c : J Z (branch stct c) (branch (any_struct any) c).
Proof.
  unfold branch. destruct (c =? c_lp); [assumption|].
  destruct (c =? c_lb); [apply J_de_seq; [apply mv_bind; [now apply mv_seq_all|auto with mv]|apply J_seq_body]|].
  destruct (c =? c_lc).
  { apply J_de_map; [apply mv_bind; [now apply mv_map_all|auto with mv]|].
    apply J_bind_ne; [auto|now apply mv_map_all|intros; mvs| |intros; apply J_ret]. apply J_map_all; [exact MA| |exact MA|exact HA].
    eapply J_mono; [|exact HA]. intros a v. apply colon_ne. }
  destruct (is_digit c || _ || _ || _ || _); [apply J_number_or_bytes|].
  destruct (_ || _).
  { apply J_bind_any; [auto with mv|intros; mvs| |intros; apply J_ret]. apply J_lit with (L := string_lit); [apply total_parse_string|auto with still|apply parse_string_sound|apply reads_string]. }
  destruct (_ =? _); [|apply J_fail].
  apply J_bind_any; [auto with mv|intros; mvs| |intros; apply J_ret]. apply J_lit with (L := char_lit); [apply total_parse_char|auto with still|apply parse_char_sound|apply reads_char].
Qed.
Lemma Jv_gen_tail v : v <> [] -> Jv v Z (gen_tail stct) (gen_tail (any_struct any)).
Proof.
  intros NE T T' v1 s a s1 s' I0 I0' SM Hs Hs' H1 R1 HZ. unfold gen_tail in *.
  apply bind_ok in H1 as (id & s2 & H2 & H1). assert (F2 := proj2 mv_skip_identifier T s id s2 I0 (proj1 SM) H2).
  assert (MT : mv (match id with Some _ => skip_ws ;;; stct | None => c <- peek_char_or_eof ;; branch stct c end)).
  { destruct id; (apply mv_bind; [auto with mv|]); intros; [assumption|now apply mv_branch]. }
  destruct (proj2 MT T s2 a s1 (proj1 F2) (fwd_plain _ _ _ (proj1 SM) F2) H1) as (_ & [x S1] & _). rewrite R1, app_assoc in S1.
  assert (JI : J any_end skip_identifier skip_identifier).
  { apply J_par; [apply total_skip_identifier|auto with still|]. intros u. now apply par_skip_identifier. }
  destruct (JI T T' v (x ++ v1) s id s2 s' I0 I0' SM Hs Hs' H2 S1 Logic.I) as (s2' & H2' & R2' & I2' & SM2).
  unfold bind at 1. rewrite H2'. destruct id as [n|].
  - exact (HWS T T' (x ++ v1) v1 s2 a s1 s2' (proj1 F2) I2' SM2 S1 R2' H1 R1 HZ).
  - assert (S2 : rest s2 = rest s).
    { apply (skip_identifier_ok T) in H2; [|assumption]. destruct H2 as (_ & Q). cbn in Q. now subst s2. }
    rewrite Hs, S1 in S2. apply app_inv_tail in S2. rewrite S2 in S1, R2'.
    apply bind_ok in H1 as (c & s3 & H3 & H1). destruct v as [|d v]; [contradiction|].
    assert (c = d /\ s3 = s2) as [-> ->].
    { unfold peek_char_or_eof, bind, peek_char in H3. rewrite S1 in H3. cbn in H3. now injection H3. }
    assert (PK : peek_char_or_eof s2' = Ok d s2') by (unfold peek_char_or_eof, bind, peek_char; now rewrite R2').
    unfold bind. rewrite PK.
    exact (J_branch d T T' _ v1 s2 a s1 s2' (proj1 F2) I2' SM2 S1 R2' H1 R1 HZ).
Qed.
Lemma J_float_range n : J Z (float_range_or_value n) (float_range_or_value n).
Proof. apply J_loc; [apply total_float_range|auto with still|now apply loc_range]. Qed.
Lemma Jv_gen_float v : v <> [] -> Jv v Z (gen_float stct) (gen_float (any_struct any)).
Proof.
  intros NE. unfold gen_float.
  apply Jv_ident; [reflexivity|apply (mv_float_range (NFloat F32 _))|apply (J_float_range (NFloat F32 _))|].
  apply Jv_ident; [reflexivity|apply (mv_float_range (NFloat F32 _))|apply (J_float_range (NFloat F32 _))|].
  apply Jv_ident; [reflexivity|apply (mv_float_range (NFloat F64 _))|apply (J_float_range (NFloat F64 _))|].
  apply Jv_ident; [reflexivity|apply (mv_float_range (NFloat F32 _))|apply (J_float_range (NFloat F32 _))|].
  apply Jv_ident; [reflexivity|apply (mv_float_range (NFloat F32 _))|apply (J_float_range (NFloat F32 _))|].
  apply Jv_ident; [reflexivity|apply (mv_float_range (NFloat F64 _))|apply (J_float_range (NFloat F64 _))|].
  now apply Jv_gen_tail.
Qed.
Lemma Jv_unit v : v <> [] -> Jv v Z (b <- consume_str s_unit ;; if b then ret XUnit else gen_float stct) (b <- consume_str s_unit ;; if b then ret XUnit else gen_float (any_struct any)).
Proof.
  intros NE T T' v1 s a s1 s' I0 I0' SM Hs Hs' H1 R1 HZ. assert (TR := proj2 (proj2 (proj2 SM))). unfold bind in *. rewrite consume_str_eq in *.
  destruct (strip_prefix s_unit (rest s)) as [q|] eqn:SP.
  - apply strip_prefix_some in SP. apply ret_ok in H1 as [-> ->]. cbn in R1. subst q. rewrite Hs, app_assoc in SP. apply app_inv_tail in SP. subst v.
    rewrite Hs', <- app_assoc, strip_prefix_app. exists (moved (v1 ++ k') s'). split; [reflexivity|]. split; [reflexivity|].
    assert (A1 : adv T s (moved (v1 ++ k) s)) by (apply adv_moved; [assumption|rewrite Hs, <- app_assoc; apply suf_app]).
    assert (A1' : adv T' s' (moved (v1 ++ k') s')) by (apply adv_moved; [assumption|rewrite Hs', <- app_assoc; apply suf_app]).
    split; [apply A1'|]. eapply sim_adv; [exact SM|exact A1| |exact A1'].
    assert (CS : consume_str s_unit s = Ok true (moved (v1 ++ k) s)) by (rewrite consume_str_eq, Hs, <- app_assoc, strip_prefix_app; reflexivity).
    eapply keeps_ok; [apply keeps_still; intros; apply still_consume_str|exact TR|exact CS].
  - destruct (strip_prefix s_unit (rest s')) as [q|] eqn:SP'.
    + exfalso. apply strip_prefix_some in SP'. rewrite Hs' in SP'. destruct v as [|c v]; [contradiction|].
      cbn [app] in SP'. apply cons_inj in SP' as [-> SP']. destruct v as [|d v].
      * rewrite (gen_float_lp stct s k Hs) in H1. assert (L := DS T s a s1 k I0 (proj1 SM) TR Hs H1). rewrite R1, app_length in L. unfold str, char in *. lia.
      * cbn [app] in SP'. apply cons_inj in SP' as [-> SP']. rewrite Hs in SP. discriminate SP.
    + exact (Jv_gen_float v NE T T' v1 s a s1 s' I0 I0' SM Hs Hs' H1 R1 HZ).
Qed.
Lemma Jv_any_gen v : v <> [] -> Jv v Z (any_gen stct) (any_gen (any_struct any)).
Proof.
  intros NE. unfold any_gen.
  apply Jv_ident; [reflexivity|auto with mv|apply J_ret|]. apply Jv_ident; [reflexivity|auto with mv|apply J_ret|].
  intros T T' v1 s a s1 s' I0 I0' SM Hs Hs' H1 R1 HZ. unfold bind at 1 in H1. unfold bind at 1. rewrite check_ident_eq in *. rewrite Hs, ident_local in H1 by (auto; now apply word_tok).
  rewrite Hs', ident_local by (auto; now apply word_tok). destruct (ident_at s_Some v).
  - refine (J_de_option Z XNone _ _ _ _ T T' v v1 s a s1 s' I0 I0' SM Hs Hs' H1 R1 HZ); [mvs|].
    apply J_bind_ne; [auto|assumption|intros; mvs|assumption|intros; apply J_ret].
  - revert T T' v1 s a s1 s' I0 I0' SM Hs Hs' H1 R1 HZ. apply Jv_ident; [reflexivity|auto with mv|apply J_ret|]. now apply Jv_unit.
Qed.
End Gen.
Lemma deep_struct : deep (any_struct any).
Proof.
  intros T s x s1 r I0 P TR Hs H. destruct (any_struct_text_of T s x s1 I0 P TR H (ex_intro _ r Hs)) as (w & t & w' & w2 & Q & _).
  rewrite Hs in Q. apply cons_inj in Q as [_ ->]. rewrite !app_length. cbn [length]. rewrite !app_length. unfold str, char in *. lia.
Qed.
Lemma deep_struct0 : deep any_struct0.
Proof. intros T s x s1 r I0 P TR Hs H. eapply deep_struct; [exact I0|exact P|exact TR|exact Hs|exact (any_struct0_run s x s1 H)]. Qed.
Lemma J_any_main : J ne (any_main any) (any_main any).
Proof.
  rewrite any_main_gen. intros T T' v v1 s x s1 s' I0 I0' SM Hs Hs' H1 R1 NE.
  assert (F1 := proj2 (mv_any_gen _ mv_struct_any) T s x s1 I0 (proj1 SM) H1).
  assert (VN : v <> []).
  { intros ->. destruct F1 as (_ & [u Q] & _). rewrite Hs, R1 in Q. cbn [app] in Q. apply (f_equal (@length char)) in Q. rewrite !app_length in Q.
    destruct v1; [now apply NE|]. cbn in Q. unfold str, char in *. lia. }
  refine (Jv_any_gen (any_struct any) ne mv_struct_any deep_struct J_struct_ne _ v VN T T' v1 s x s1 s' I0 I0' SM Hs Hs' H1 R1 NE).
  apply J_bind_ne; [auto|auto with mv|intros _; apply mv_struct_any|apply J_skip_ws|intros _; apply J_struct_ne].
Qed.
Lemma Jv_any_main0 v : v <> [] -> Jv v any_end (any_gen any_struct0) (any_main any).
Proof.
  intros VN. rewrite any_main_gen. apply (Jv_any_gen any_struct0 any_end mv_struct0 deep_struct0 (J_struct0 any_end)); [|exact VN].
  apply J_bind_eat; [auto with mv|intros _; apply mv_struct0|intros _; apply eat_struct0|apply J_skip_ws|intros _; apply J_struct0].
Qed.
End Any.

Lemma mv_any f : mv (de_any f).
Proof.
  induction f as [|f IH]; [apply mv_oof|]. split; [apply keeps_any|].
  intros T s x s1 I0 P H. cbn [de_any] in H. apply bind_ok in H as (z & s2 & H2 & H). apply get_ok in H2 as [-> ->]. rewrite (proj1 P) in H. rewrite any_main_gen in H.
  exact (proj2 (mv_any_gen _ IH _ (mv_struct_any _ IH)) T s x s1 I0 P H).
Qed.
Lemma any_reads f : forall e b, reads_from e Keep.ready b (de_any f) (vacc e b).
Proof. intros e. apply de_any_ok. Qed.
Lemma J_any f : J ne (de_any f) (de_any f).
Proof.
  induction f as [|f IH]; cbn [de_any]; [apply J_oof|]. apply J_get. intros s s' ([-> _] & [-> _] & _). apply J_any_main; [apply mv_any|exact IH|apply any_reads].
Qed.

End K.

(** something has been read since the last layout *)
Definition fresh (s : st) : Prop := exists l, last_ws s = Some l /\ (l + blen (rest s) < blen (pre_ws s))%nat.
Lemma blen_suf a b : suf a b -> (length a < length b)%nat -> (blen a < blen b)%nat.
Proof.
  intros [[|c x] ->] L; [cbn in L; unfold str, char in *; lia|]. cbn [app blen]. rewrite blen_app. pose proof (len_utf8_pos c). lia.
Qed.
Lemma fresh_moved s s1 : tracked s -> Keep.same s s1 -> (length (rest s1) < length (rest s))%nat -> fresh s1.
Proof.
  intros (p & q & P & S & F & C) (P1 & L1 & S1) LT. destruct C as [->|[L Y]].
  { apply suf_length in S. cbn in S. lia. }
  exists (blen p). rewrite P1, L1, P, blen_app. split; [assumption|].
  assert (Q : (blen (rest s1) < blen (rest s))%nat) by now apply blen_suf.
  destruct S as [x ->]. rewrite blen_app. lia.
Qed.
Lemma fresh_same s s1 : fresh s -> Keep.same s s1 -> fresh s1.
Proof. intros (l & L & B) (P1 & L1 & [x S1]). exists l. rewrite P1, L1. split; [assumption|]. rewrite S1, blen_app in B. lia. Qed.
Lemma still_same {A} (m : M A) s a s1 : (forall s0, Keep.still s0 m) -> m s = Ok a s1 -> Keep.same s s1.
Proof. intros ST H. specialize (ST s s (same_refl s)). now rewrite H in ST. Qed.
Lemma skip_ws_run s s1 : skip_ws s = Ok tt s1 -> pre_ws s1 = pre_ws (track_ws s) /\ ~ fresh s1.
Proof.
  intros H. unfold skip_ws in H. unfold bind at 1, modify in H. unfold bind at 1, src in H. set (s0 := track_ws s) in *.
  assert (NF : ~ fresh s0).
  { intros (l & L & B). unfold s0, track_ws in L, B. destruct (last_ws s) as [l'|] eqn:LW; [|congruence].
    destruct (Nat.ltb (l' + blen (rest s)) (blen (pre_ws s))) eqn:Q; cbn in L, B; rewrite ?LW in L; injection L as <-; [lia|]. apply Nat.ltb_ge in Q. lia. }
  clearbody s0. destruct (rest s0) as [|c r] eqn:R; [injection H as <-; auto|]. rewrite <- R in *.
  unfold bind in H. destruct (ws_loop _ s0) as [b s2|x s2| |] eqn:W; try discriminate.
  assert (ST := still_ws_loop s0 (Datatypes.S (length (rest s0))) s0 (same_refl _)). rewrite W in ST. destruct ST as (P1 & _).
  destruct b; [injection H as <-; split; [exact P1|intros (l & L & _); discriminate L]|]. unfold update_last_ws in H.
  destruct (Nat.leb _ _); [|discriminate]. injection H as <-. split; [exact P1|]. intros (l & L & B). cbn in L, B. injection L as <-. lia.
Qed.
Lemma skip_ws_fresh s s1 : fresh s -> skip_ws s = Ok tt s1 -> pre_ws s1 = rest s /\ ~ fresh s1.
Proof.
  intros (l & L & B) H. apply skip_ws_run in H as [-> NF]. split; [|exact NF]. unfold track_ws. rewrite L. apply Nat.ltb_lt in B. now rewrite B.
Qed.
Lemma skip_ws_again s s1 : ~ fresh s -> skip_ws s = Ok tt s1 -> pre_ws s1 = pre_ws s.
Proof.
  intros N H. apply skip_ws_run in H as [-> _]. unfold track_ws. destruct (last_ws s) as [l|] eqn:L; [|reflexivity].
  destruct (Nat.ltb _ _) eqn:Q; [|reflexivity]. exfalso. apply N. exists l. split; [exact L|now apply Nat.ltb_lt].
Qed.
(** what the layout after a value is taken to begin with *)
Definition trail (w : str) (s : st) : Prop := (w = [] /\ fresh s) \/ (pre_ws s = w ++ rest s /\ ~ fresh s /\ (layout w <-> last_ws s <> None)).
Lemma skip_ws_closed T s s1 w : inv T s -> fresh s \/ rest s <> [] -> skip_ws s = Ok tt s1 -> rest s = w ++ rest s1 -> layout w <-> last_ws s1 <> None.
Proof.
  intros I0 FR H Q. split; intros LW.
  2:{ unfold skip_ws in H. unfold bind at 1, modify in H. unfold bind at 1, src in H. rewrite <- (track_ws_rest s) in Q. set (s0 := track_ws s) in *. clearbody s0.
      destruct (rest s0) as [|c r] eqn:R; [apply eq_sym, app_eq_nil in Q as [-> _]; constructor|]. rewrite <- R in *.
      unfold bind in H. destruct (ws_loop _ s0) as [b s2|x s2| |] eqn:W; try discriminate. apply ws_loop_sound in W as (w0 & Hw & D). destruct b.
      - injection H as <-. cbn in LW. congruence.
      - unfold update_last_ws in H. destruct (Nat.leb _ _); [|discriminate]. injection H as <-. cbn in Q. destruct D as [D _].
        rewrite Q in Hw. apply app_inv_tail in Hw as ->. exact D. }
  unfold skip_ws in H. unfold bind at 1, modify in H. unfold bind at 1, src in H.
  assert (R0 := track_ws_rest s). assert (A0 := track_ws_adv T s I0). assert (L0 : fresh s -> last_ws (track_ws s) <> None).
  { intros (l & L & B). unfold track_ws. rewrite L. apply Nat.ltb_lt in B. rewrite B. cbn. congruence. }
  set (s0 := track_ws s) in *. clearbody s0. rewrite <- R0 in Q, FR.
  destruct (rest s0) as [|c r] eqn:R; [injection H as <-; destruct FR as [FR|FR]; [auto|congruence]|]. rewrite <- R in *.
  unfold bind in H. destruct (ws_loop _ s0) as [b s2|x s2| |] eqn:W; try discriminate. destruct b.
  - exfalso. assert (W0 := W). apply ws_loop_sound in W0 as (w0 & _ & N & _). injection H as <-. cbn in Q. rewrite N in Q.
    assert (G := ws_loop_layout T (fun b _ => b = false) (fun _ _ => False) w [] (Datatypes.S (length (rest s0))) s0 LW Logic.I (adv_inv _ _ _ A0) Q (le_n _) (fun _ _ _ => eq_refl)).
    Transparent wp. unfold wp in G. Opaque wp. rewrite W in G. discriminate.
  - unfold update_last_ws in H. destruct (Nat.leb _ _); [|discriminate]. injection H as <-. cbn. discriminate.
Qed.
Lemma trail_skip w s s1 : trail w s -> skip_ws s = Ok tt s1 -> pre_ws s1 = w ++ rest s.
Proof. intros [[-> F]|[P [F _]]] H; [now apply skip_ws_fresh|]. now rewrite (skip_ws_again s s1 F H). Qed.

Lemma struct_type_cursor a b s t s1 : check_struct_type a b s = Ok t s1 -> rest s1 = rest s /\ pre_ws s1 = pre_ws s /\ last_ws s1 = last_ws s.
Proof.
  intros H. unfold check_struct_type in H. apply bind_ok in H as (c & s2 & H2 & H). unfold get_cursor_m in H2. injection H2 as <- <-.
  apply bind_ok in H as (t' & s3 & _ & H). apply bind_ok in H as (u & s4 & H4 & H). apply ret_ok in H as [-> ->]. unfold set_cursor_m, modify in H4. injection H4. intros H. rewrite <- H. repeat split.
Qed.
(** a name alone is the one value that layout is read after *)
Lemma any_name any T s x s1 : inv T s -> plain s -> tracked s -> any_main any s = Ok x s1 -> any_gen any (any_struct0 any) s = Ok x s1 \/
  exists t n w, x = XUnit /\ rest s = t ++ w ++ rest s1 /\ ident_lit t n /\ lay w (rest s1) /\ no_word (rest s) /\ trail w s1.
Proof.
  intros I0 P TR H. rewrite any_main_gen in H. unfold any_gen in *.
  assert (STEP : forall w (f f' : bool -> M value) (Q : Prop), bind (consume_ident w) f s = Ok x s1 -> (forall s2, f true s2 = f' true s2) ->
    (ident_at w (rest s) = false -> f false s = Ok x s1 -> f' false s = Ok x s1 \/ Q) -> bind (consume_ident w) f' s = Ok x s1 \/ Q).
  { intros w f f' Q H0 HT HF. apply bind_ok in H0 as (b & s2 & H2 & H0). unfold bind. rewrite H2. destruct b; [left; now rewrite <- HT|].
    rewrite consume_ident_eq in H2. destruct (ident_at w (rest s)); [destruct (strip_prefix _ _); discriminate|]. injection H2 as <-. auto. }
  eapply STEP; [exact H|reflexivity|clear H; intros N1 H]. cbv iota in *. eapply STEP; [exact H|reflexivity|clear H; intros N2 H]. cbv iota in *.
  unfold bind at 1 in H. unfold bind at 1. rewrite check_ident_eq in *. destruct (ident_at s_Some (rest s)) eqn:N3; [now left|].
  eapply STEP; [exact H|reflexivity|clear H; intros N4 H]. cbv iota in *.
  unfold bind at 1 in H. unfold bind at 1. rewrite consume_str_eq in *. destruct (strip_prefix s_unit (rest s)); [now left|]. unfold gen_float in *.
  eapply STEP; [exact H|reflexivity|clear H; intros N5 H]. cbv iota in *. eapply STEP; [exact H|reflexivity|clear H; intros N6 H]. cbv iota in *.
  eapply STEP; [exact H|reflexivity|clear H; intros N7 H]. cbv iota in *. eapply STEP; [exact H|reflexivity|clear H; intros N8 H]. cbv iota in *.
  eapply STEP; [exact H|reflexivity|clear H; intros N9 H]. cbv iota in *. eapply STEP; [exact H|reflexivity|clear H; intros N10 H]. cbv iota in *.
  unfold gen_tail in *. apply bind_ok in H as (id & s2 & H2 & H). unfold bind at 1. rewrite H2. destruct id as [n|].
  - apply bind_ok in H as (z & s3 & H3 & H). unfold bind at 1. rewrite H3. unfold any_struct in H. apply bind_ok in H as (ty & s4 & H4 & H).
    unfold any_struct0. unfold bind at 1. rewrite H4. destruct ty; try (now left). right.
    apply ret_ok in H as [-> ->]. assert (SA := still_same _ _ _ _ (fun s0 => still_skip_identifier s0) H2). apply (skip_identifier_ok T) in H2 as (A2 & t & Q2 & HI); [|assumption].
    assert (FR : fresh s2).
    { eapply fresh_moved; [exact TR|exact SA|]. rewrite Q2, app_length. destruct (ident_lit_head t n [] HI) as (c0 & t0 & Q0 & _). destruct t; [discriminate Q0|cbn; lia]. }
    destruct z. destruct (skip_ws_fresh _ _ FR H3) as [PW NF].
    assert (SC := fun w Q => skip_ws_closed T _ _ w (adv_inv _ _ _ A2) (or_introl FR) H3 Q).
    apply (skip_ws_ok T) in H3 as (A3 & w & Q3 & L3); [|apply A2]. destruct (check_struct_type_ok true false T s3 SUnit s4 (adv_inv _ _ _ A3) H4) as [_ RS]. assert (CU := struct_type_cursor _ _ _ _ _ H4).
    exists t, n, w. split; [reflexivity|]. rewrite RS. split; [now rewrite Q2, Q3|]. split; [assumption|]. split; [assumption|]. split.
    + intros w0 IN. cbn in IN. repeat (destruct IN as [<-|IN]; [assumption|]). contradiction.
    + right. destruct CU as (C1 & C2 & C3). unfold fresh. rewrite C1, C2, C3. split; [now rewrite PW, Q3|]. split; [exact NF|]. now apply SC.
  - apply bind_ok in H as (c & s3 & H3 & H). unfold bind at 1. rewrite H3. unfold branch in *. destruct (c =? c_lp) eqn:C; [|now left]. left.
    unfold any_struct in H. apply bind_ok in H as (ty & s4 & H4 & H). unfold any_struct0. unfold bind at 1. rewrite H4. destruct ty; try exact H. exfalso.
    apply N.eqb_eq in C. subst c. unfold peek_char_or_eof, bind, peek_char in H3. destruct (rest s2) as [|d r] eqn:R2; [discriminate|]. injection H3 as -> <-.
    eapply check_struct_type_unit; eassumption.
Qed.

(** what comes last in the text of a value *)
Definition ends {A} (m : M A) : Prop := forall T s a s1, inv T s -> plain s -> tracked s -> m s = Ok a s1 ->
  fresh s1 /\ exists u c, rest s = u ++ c :: rest s1 /\ In c [c_rp; c_rb; c_rc].
Lemma ends_bind {A B} (m : M A) (f : A -> M B) : mv m -> (forall a, ends (f a)) -> ends (bind m f).
Proof.
  intros MM EF T s b s1 I0 P TR H. apply bind_ok in H as (a & s2 & H2 & H). assert (F2 := proj2 MM T s a s2 I0 P H2).
  assert (TR2 := keeps_ok _ _ _ _ (proj1 MM) TR H2).
  destruct (EF a T s2 b s1 (proj1 F2) (fwd_plain _ _ _ P F2) TR2 H) as (FR & u & c & Q & IN). destruct F2 as (_ & [x S2] & _). split; [assumption|].
  exists (x ++ u), c. split; [rewrite S2, Q; flat; reflexivity|assumption].
Qed.
Lemma ends_fin {A} c (a : A) x : In c [c_rp; c_rb; c_rc] -> ends (fin c a x).
Proof.
  intros IN T s b s1 I0 P TR H. unfold fin in H. apply bind_ok in H as (d & s2 & H2 & H). assert (H0 := H2). apply (consume_char_ok T) in H2 as (_ & Q); [|assumption].
  destruct d; [|discriminate]. apply ret_ok in H as [-> ->]. split.
  - eapply fresh_moved; [exact TR|eapply still_same; [|exact H0]; intros; apply still_consume_char|]. rewrite Q. cbn. lia.
  - exists [], c. auto.
Qed.
Lemma ends_bracket {A} (body : M A) c x : In c [c_rp; c_rb; c_rc] -> mv body -> ends (v <- guard body ;; skip_ws ;;; fin c v x).
Proof. intros IN MB. apply ends_bind; [now apply mv_guard|]. intros v. apply ends_bind; [auto with mv|]. intros _. now apply ends_fin. Qed.
Lemma ends_fail {A} x : ends (@fail A x).
Proof. intros T s a s1 _ _ _ H. discriminate. Qed.
Lemma ends_seq {A} (body : M A) : mv body -> ends (de_seq body).
Proof.
  intros MB. unfold de_seq. apply ends_bind; [auto with mv|]. intros _. apply ends_bind; [auto with mv|]. intros []; [|apply ends_fail].
  apply (ends_bracket body c_rb); [cbn; tauto|assumption].
Qed.
Lemma ends_map {A} (body : M A) : mv body -> ends (de_map body).
Proof.
  intros MB. unfold de_map. apply ends_bind; [auto with mv|]. intros _. apply ends_bind; [auto with mv|]. intros []; [|apply ends_fail].
  apply (ends_bracket body c_rc); [cbn; tauto|assumption].
Qed.
Lemma ends_get {A} (f : st -> M A) : (forall s, plain s -> ends (f s)) -> ends (bind get f).
Proof. intros EF T s a s1 I0 P TR H. apply bind_ok in H as (z & s2 & H2 & H). apply get_ok in H2 as [-> ->]. exact (EF s P T s a s1 I0 P TR H). Qed.
Lemma ends_tuple {A} (body : M A) : mv body -> ends (de_tuple body).
Proof.
  intros MB. unfold de_tuple. apply ends_get. intros s [-> _]. apply ends_bind; [auto with mv|]. intros []; [|apply ends_fail].
  apply ends_bind; [auto with mv|]. intros _. apply (ends_bracket body c_rp); [cbn; tauto|assumption].
Qed.
Lemma ends_struct {A} (body : M A) : mv body -> ends (struct_after_name [] body).
Proof.
  intros MB. unfold struct_after_name. apply ends_get. intros s [-> _]. cbn [negb is_nil andb]. apply ends_bind; [auto with mv|]. intros []; [|apply ends_fail].
  apply ends_bind; [auto with mv|]. intros _. apply (ends_bracket _ c_rp); [cbn; tauto|now apply mv_map_err].
Qed.
Lemma ends_struct0 any : mv any -> ends (any_struct0 any).
Proof.
  intros MA. unfold any_struct0. apply ends_bind; [auto with mv|].
  assert (E1 : ends (map_part any)) by (unfold map_part; apply ends_struct, mv_bind; [apply mv_map_all; [mvs|assumption]|auto with mv]).
  assert (E2 : ends (seq_part any)) by (unfold seq_part; apply ends_tuple, mv_bind; [now apply mv_seq_all|auto with mv]).
  intros []; (assumption || apply ends_fail).
Qed.
Lemma option_class {A} (a : A) m T s x s1 : mv m -> inv T s -> plain s -> tracked s -> de_option a m s = Ok x s1 ->
  fresh s1 /\ ((x = a /\ rest s = s_None ++ rest s1) \/ exists u c, rest s = u ++ c :: rest s1 /\ In c [c_rp; c_rb; c_rc]).
Proof.
  intros MM I0 P TR H. unfold de_option in H. apply bind_ok in H as (b & s2 & H2 & H). assert (H0 := H2). apply (consume_ident_ok T) in H2 as (A2 & Q2); [|assumption].
  destruct b.
  { apply ret_ok in H as [-> ->]. split; [|auto]. eapply fresh_moved; [exact TR|eapply still_same; [|exact H0]; intros; apply still_consume_ident|]. rewrite Q2, app_length. cbn. lia. }
  subst s2.
  assert (EN : ends (sm <- consume_ident s_Some ;; op <- (if sm then skip_ws ;;; consume_char c_lp else ret false) ;;
    if op then
      skip_ws ;;;
      modify (fun s => set_nt (x_unwrap_variant_newtypes (ext s)) s) ;;;
      v <- guard m ;;
      modify (set_nt false) ;;;
      comma ;;;
      fin c_rp v EExpectedOptionEnd
    else
      s <- get ;;
      if x_implicit_some (ext s) then guard_r m else fail EExpectedOption)).
  { apply ends_bind; [auto with mv|]. intros sm. apply ends_bind; [destruct sm; mvs|]. intros [].
    - apply ends_bind; [auto with mv|]. intros _. apply ends_bind; [apply mv_unwrap|]. intros _. apply ends_bind; [now apply mv_guard|]. intros v.
      apply ends_bind; [auto with mv|]. intros _. apply ends_bind; [auto with mv|]. intros _. apply ends_fin. cbn. tauto.
    - apply ends_get. intros z (_ & _ & ->). apply ends_fail. }
  destruct (EN T s x s1 I0 P TR H) as (FR & EX). auto.
Qed.
Lemma gen_class any T s x s1 : mv any -> inv T s -> plain s -> tracked s -> any_gen any (any_struct0 any) s = Ok x s1 ->
  (fresh s1 /\ exists t, rest s = t ++ rest s1 /\ atom x t) \/ (fresh s1 /\ exists u c, rest s = u ++ c :: rest s1 /\ In c [c_rp; c_rb; c_rc]).
Proof.
  intros MA I0 P TR H.
  assert (FM : forall s2, Keep.same s s2 -> (length (rest s2) < length (rest s))%nat -> fresh s2) by (intros s2 SA LT; eapply fresh_moved; eassumption).
  assert (STEP : forall w t (f : bool -> M value), bind (consume_ident w) f s = Ok x s1 -> (0 < length w)%nat ->
    (forall s2, fresh s2 -> rest s = w ++ rest s2 -> adv T s s2 -> f true s2 = Ok x s1 -> fresh s1 /\ exists t, rest s = t ++ rest s1 /\ atom x t) ->
    (f false s = Ok x s1 -> (fresh s1 /\ exists t, rest s = t ++ rest s1 /\ atom x t) \/ t) -> (fresh s1 /\ exists t, rest s = t ++ rest s1 /\ atom x t) \/ t).
  { intros w t f H0 LW HT HF. apply bind_ok in H0 as (b & s2 & H2 & H0). assert (SA := still_same _ _ _ _ (fun s0 => still_consume_ident s0 w) H2).
    apply (consume_ident_ok T) in H2 as (A2 & Q2); [|assumption]. destruct b.
    - left. eapply HT; [|eassumption..]. apply FM; [assumption|]. rewrite Q2, app_length. unfold str, char in *. lia.
    - subst s2. auto. }
  assert (FL : forall n w s2, fresh s2 -> rest s = w ++ rest s2 -> adv T s s2 -> num_lit n w -> float_range_or_value n s2 = Ok x s1 -> fresh s1 /\ exists t, rest s = t ++ rest s1 /\ atom x t).
  { intros n w s2 FR Q A2 NL H0. assert (SA := still_same _ _ _ _ (fun s0 => still_float_range s0 n) H0). apply (float_range_sound T) in H0 as (t & Ht & AT); [|apply A2].
    split; [eapply fresh_same; eassumption|]. exists (w ++ t). rewrite Q, Ht. split; [flat; reflexivity|]. now apply AT. }
  unfold any_gen in H.
  eapply STEP; [exact H|cbn; lia|intros s2 FR Q A2 H0; apply ret_ok in H0 as [-> ->]; split; [exact FR|]; exists s_true; split; [assumption|apply (at_bool true)]|clear H; intros H]. cbv iota in H.
  eapply STEP; [exact H|cbn; lia|intros s2 FR Q A2 H0; apply ret_ok in H0 as [-> ->]; split; [exact FR|]; exists s_false; split; [assumption|apply (at_bool false)]|clear H; intros H]. cbv iota in H.
  unfold bind at 1 in H. rewrite check_ident_eq in H. destruct (ident_at s_Some (rest s)).
  { apply (option_class XNone _ T) in H; [|mvs|assumption|assumption|assumption]. destruct H as [FR [[-> Q]|H]]; [|now right]. left. split; [assumption|]. exists s_None. split; [assumption|constructor]. }
  eapply STEP; [exact H|cbn; lia|intros s2 FR Q A2 H0; apply ret_ok in H0 as [-> ->]; split; [exact FR|]; exists s_None; split; [assumption|constructor]|clear H; intros H]. cbv iota in H.
  apply bind_ok in H as (b & s2 & H2 & H). assert (SA := still_same _ _ _ _ (fun s0 => still_consume_str s0 s_unit) H2). apply (consume_str_ok T) in H2 as (A2 & Q2); [|assumption]. destruct b.
  { apply ret_ok in H as [-> ->]. left. split; [apply FM; [assumption|rewrite Q2, app_length; cbn; lia]|]. exists s_unit. split; [assumption|constructor]. } subst s2. clear SA. unfold gen_float in H.
  eapply STEP; [exact H|cbn; lia|intros s2 FR Q A3 H0; eapply FL; [exact FR|exact Q|exact A3| |exact H0]; apply nl_word; auto|clear H; intros H]. cbv iota in H.
  eapply STEP; [exact H|cbn; lia|intros s2 FR Q A3 H0; eapply FL; [exact FR|exact Q|exact A3| |exact H0]; apply (nl_word_suffix F32 s_inf f_inf); auto|clear H; intros H]. cbv iota in H.
  eapply STEP; [exact H|cbn; lia|intros s2 FR Q A3 H0; eapply FL; [exact FR|exact Q|exact A3| |exact H0]; apply (nl_word_suffix F64 s_inf f_inf); auto|clear H; intros H]. cbv iota in H.
  eapply STEP; [exact H|cbn; lia|intros s2 FR Q A3 H0; eapply FL; [exact FR|exact Q|exact A3| |exact H0]; apply nl_word; auto|clear H; intros H]. cbv iota in H.
  eapply STEP; [exact H|cbn; lia|intros s2 FR Q A3 H0; eapply FL; [exact FR|exact Q|exact A3| |exact H0]; apply (nl_word_suffix F32 s_NaN f_nan); auto|clear H; intros H]. cbv iota in H.
  eapply STEP; [exact H|cbn; lia|intros s2 FR Q A3 H0; eapply FL; [exact FR|exact Q|exact A3| |exact H0]; apply (nl_word_suffix F64 s_NaN f_nan); auto|clear H; intros H]. cbv iota in H.
  unfold gen_tail in H. apply bind_ok in H as (id & s2 & H2 & H). destruct id as [n|].
  - assert (F2 := proj2 mv_skip_identifier T s _ s2 I0 P H2). right.
    destruct (ends_bind skip_ws (fun _ => any_struct0 any) mv_skip_ws (fun _ => ends_struct0 any MA) T s2 x s1 (proj1 F2) (fwd_plain _ _ _ P F2) (keeps_ok _ _ _ _ (proj1 mv_skip_identifier) TR H2) H) as (FR & u & c & Q & IN). split; [assumption|].
    destruct F2 as (_ & [y S2] & _). exists (y ++ u), c. split; [rewrite S2, Q; flat; reflexivity|assumption].
  - apply (skip_identifier_ok T) in H2 as (_ & ->); [|assumption]. apply bind_ok in H as (c & s2 & H2 & H).
    assert (s2 = s) as ->. { unfold peek_char_or_eof, bind, peek_char in H2. destruct (rest s); [discriminate|]. now injection H2. }
    unfold branch in H. destruct (c =? c_lp); [right; eapply ends_struct0; eassumption|].
    destruct (c =? c_lb); [right; eapply ends_seq; [|exact I0|exact P|exact TR|exact H]; apply mv_bind; [now apply mv_seq_all|auto with mv]|].
    destruct (c =? c_lc); [right; eapply ends_map; [|exact I0|exact P|exact TR|exact H]; apply mv_bind; [now apply mv_map_all|auto with mv]|]. left.
    assert (AT : forall t, rest s = t ++ rest s1 -> atom x t -> t <> []).
    { intros t Q AT ->. exact (proj2 (vacc_leads (ext s) false x [] 0 (proj1 (proj2 P)) (proj2 (proj2 P)) (va_atom _ _ _ _ AT) eq_refl) []). }
    assert (FA : Keep.same s s1 -> (exists t, rest s = t ++ rest s1 /\ atom x t) -> fresh s1 /\ exists t, rest s = t ++ rest s1 /\ atom x t).
    { intros SA (t & Q & A). split; [|eauto]. apply FM; [assumption|]. rewrite Q, app_length. specialize (AT t Q A). destruct t; [contradiction|]. cbn. lia. }
    destruct (is_digit c || _ || _ || _ || _).
    { apply FA; [|apply (any_number_or_bytes_sound T); assumption]. rewrite (nb_eq (rest s) [] s Logic.I (eq_sym (app_nil_r _))) in H.
      eapply still_same; [|exact H]. intros s0. unfold nb.
      destruct (_ && _); [|destruct (starts_with s_dotdoteq _); [|destruct (starts_with s_dotdot _); [destruct (match bdrop 2 _ with Some _ => _ | None => _ end)|]]];
        repeat first [solve [auto with still]|apply still_bind; [|intros ?]]. }
    destruct (_ || _).
    { apply bind_ok in H as (z & s3 & H3 & H). apply ret_ok in H as [-> ->]. apply FA; [eapply still_same; [|exact H3]; auto with still|].
      apply parse_string_sound in H3 as (t & Q & SL). exists t. split; [assumption|now constructor]. }
    destruct (_ =? _); [|discriminate].
    apply bind_ok in H as (z & s3 & H3 & H). apply ret_ok in H as [-> ->]. apply FA; [eapply still_same; [|exact H3]; auto with still|].
    apply parse_char_sound in H3 as (t & Q & SL). exists t. split; [assumption|now constructor].
Qed.
Lemma layout_last w : layout w -> w = [] \/ exists u c, w = u ++ [c] /\ (is_ws_char c = true \/ c = c_slash).
Proof.
  assert (AP : forall p c w', (is_ws_char c = true \/ c = c_slash) -> (w' = [] \/ exists u c, w' = u ++ [c] /\ (is_ws_char c = true \/ c = c_slash)) ->
    exists u d, p ++ c :: w' = u ++ [d] /\ (is_ws_char d = true \/ d = c_slash)).
  { intros p c w' HC [-> |(u & d & -> & HD)]; [now exists p, c|]. exists (p ++ c :: u), d. now rewrite <- app_assoc. }
  assert (CB : forall b, comment_body b -> exists p, b = p ++ [c_slash]).
  { induction 1 as [|a b _ _ _ [p ->]|c b _ [p ->]]; [now exists [c_star]|exists (c_slash :: c_star :: a ++ p); cbn; now rewrite <- app_assoc|now exists (c :: p)]. }
  induction 1 as [|c w W L IH|t w N L IH|b w B L IH]; [now left|right..].
  - apply (AP [] c w); auto.
  - apply (AP (c_slash :: c_slash :: t) c_nl w); auto.
  - destruct (CB b B) as [p ->]. rewrite <- app_assoc. apply (AP (c_slash :: c_star :: p) c_slash w); auto.
Qed.
Lemma delim_tok r : delim r -> starts_not tok r.
Proof.
  destruct r as [|c r]; [reflexivity|]. cbn. intros D. unfold tok, is_float_char.
  assert (HX : xid_continue c = false).
  { destruct D as [D|D]; [now apply ws_not_xid|]. rewrite xid_continue_ascii; cbn in D; intuition subst; reflexivity. }
  rewrite HX. destruct D as [D|D]; [|cbn in D; intuition subst; reflexivity].
  unfold is_digit. cbn. unfold is_ws_char in D. lia.
Qed.

(** The text of a value that is read: wherever it is put before the end of an
    item, that same value is read from it. *)
Theorem any_exact f T s x s1 : inv T s -> plain s -> Keep.ready s -> de_any f s = Ok x s1 -> delim (rest s1) ->
  exists t w d, rest s = t ++ w ++ rest s1 /\ lay w (rest s1) /\ vacc (ext s) false x t d /\
  trail w s1 /\ (w = [] \/ (x = XUnit /\ exists n, ident_lit t n)) /\ forall T' s' K r, inv T' s' -> nt s' = false -> x_unwrap_variant_newtypes (ext s') = false -> lim s' = lim s ->
    remainder K -> K r -> rest s' = t ++ r ->
    exists s1', de_any f s' = Ok x s1' /\ K (rest s1') /\ suf (rest s1') r.
Proof.
  intros I0 P RD H D1. assert (TR := ready_tracked _ RD).
  destruct (proj2 (any_reads f (ext s) false) T s x s1 I0 RD eq_refl (proj1 P) H) as (DK & t & w & d & Q & L & HV & _).
  destruct f as [|f]; [discriminate|]. cbn [de_any] in H. apply bind_ok in H as (z & s2 & H2 & H). apply get_ok in H2 as [-> ->]. rewrite (proj1 P) in H.
  assert (GA := any_reads f). assert (MA := mv_any f).
  destruct (any_name (de_any f) T s x s1 I0 P TR H) as [H0|(t' & n & w' & -> & Q' & HI & L' & NW & TL)].
  - assert (VT : exists v d', rest s = v ++ rest s1 /\ v <> [] /\ vacc (ext s) false x v d').
    { destruct (gen_class (de_any f) T s x s1 MA I0 P TR H0) as [(_ & v & QV & AT)|(_ & u & c & QV & IN)].
      { exists v, 0%nat. split; [assumption|]. split; [|now apply va_atom]. intros ->.
        exact (proj2 (vacc_leads (ext s) false x [] 0 (proj1 (proj2 P)) (proj2 (proj2 P)) (va_atom _ _ _ _ AT) eq_refl) []). }
      set (v := u ++ [c]). assert (QV' : rest s = v ++ rest s1) by (unfold v; rewrite QV; flat; reflexivity). assert (VN : v <> []) by (unfold v; destruct u; discriminate).
      set (T' := v ++ [c_comma]). set (s' := set_lim (lim s) (set_ext (ext s) (init_state T'))).
      assert (I' : inv T' s') by apply inv_init.
      assert (SM : sim s s') by (split; [assumption|]; split; [split; [reflexivity|apply P]|]; split; [reflexivity|assumption]).
      assert (KC : starts_not tok [c_comma]) by (apply delim_tok; cbn; tauto).
      destruct (Jv_any_main0 (rest s1) [c_comma] (delim_tok _ D1) KC (de_any f) MA (J_any _ _ (delim_tok _ D1) KC f) GA v VN T T' [] s x s1 s' I0 I' SM QV' eq_refl H0 eq_refl Logic.I)
        as (s1' & H1' & R1' & _).
      assert (H2' : de_any (Datatypes.S f) s' = Ok x s1') by (cbn [de_any]; exact H1').
      destruct (proj2 (any_reads (Datatypes.S f) (ext s) false) T' s' x s1' I' (ready_init T') eq_refl eq_refl H2') as (_ & tv & wv & dv & Qv & Lv & HVv & _).
      rewrite R1' in Qv, Lv. apply lay_cons in Lv. change (rest s') with (v ++ [c_comma]) in Qv. rewrite app_assoc in Qv. cbn [app] in Qv. apply app_inv_tail in Qv.
      apply layout_last in Lv as [-> |(uw & cw & -> & HC)].
      - rewrite app_nil_r in Qv. subst tv. eauto.
      - exfalso. unfold v in Qv. rewrite app_assoc in Qv. apply app_inj_tail in Qv as [_ <-]. cbn in IN.
        destruct HC as [HC|HC]; intuition (subst; discriminate). }
    destruct VT as (v & d' & QV & VN & HVV). exists v, [], d'. split; [assumption|]. split; [apply lay_nil|]. split; [assumption|]. split; [left; split; [reflexivity|now destruct (gen_class (de_any f) T s x s1 MA I0 P TR H0) as [[FR _]|[FR _]]]|]. split; [now left|].
    intros T' s' K r I' N' U' L' HR HK Hs'. assert (DR := remainder_delim K r HR HK).
    assert (SM : sim s s') by (split; [assumption|]; split; [now split|]; split; [now symmetry|assumption]).
    destruct (Jv_any_main0 (rest s1) r (delim_tok _ D1) (delim_tok _ DR) (de_any f) MA (J_any _ _ (delim_tok _ D1) (delim_tok _ DR) f) GA v VN T T' [] s x s1 s' I0 I' SM QV Hs' H0 eq_refl Logic.I)
      as (s1' & H1' & R1' & _).
    exists s1'. split; [cbn [de_any]; unfold bind, get; rewrite N'; exact H1'|]. cbn in R1'. rewrite R1'. split; [assumption|]. now exists [].
  - exists t', w', 0%nat. split; [assumption|]. split; [assumption|]. split; [apply va_atom, (at_name t' n HI)|]. split; [exact TL|]. split; [right; eauto|].
    assert (NK : ~ In t' keywords).
    { intros IN. specialize (NW t' IN). rewrite Q', ident_at_app in NW; [discriminate|].
      assert (DE : delim (w' ++ rest s1)).
      { destruct L' as [L'|[-> L']]; [now apply layout_delim|]. rewrite app_nil_r. now apply final_delim. }
      apply delim_tok in DE. destruct (w' ++ rest s1) as [|c q]; [exact Logic.I|]. cbn in *. destruct (xid_continue c) eqn:XC; [|reflexivity]. apply sub_xid in XC. congruence. }
    intros T' s' K r I' N' U' LM HR HK Hs'.
    assert (TW := any_name_reads (ext s') U' (de_any f) t' n T' s' r K HI NK HR HK I' Hs' eq_refl N').
    Transparent wp. unfold wp in TW. Opaque wp. destruct (any_main (de_any f) s') as [x' s1'| | |] eqn:QM; try contradiction. destruct TW as (-> & KR & _).
    exists s1'. split; [|assumption]. cbn [de_any]. unfold bind, get. rewrite N'. exact QM.
Qed.
End S.
