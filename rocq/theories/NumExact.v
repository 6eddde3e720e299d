(** What [any_number], [float_range_or_value] and [any_number_or_bytes] read
    from a text they also read from it when something else follows, as long as
    that could not continue a number or a word. *)
From Coq Require Import String Ascii NArith ZArith Lia Bool List.
From Coq Require Import ZifyBool ZifyNat ZifyN.
From Verif Require Import Base Facts Value Data Parse De Wp EnvOk LexSafe DeSafe Layout LexWs Lit LexRead LexDoc Inv LexSound AnyRead NumLocal.
Import ListNotations.
Open Scope N_scope.
Open Scope list_scope.
Open Scope m_scope.

Section S.
Context {E : Env} {X : XidOk E}.

(** ** Byte literals *)
Lemma reads_byte_literal k t b : (k = None \/ k = Some U8) -> byte_lit t b -> reads (integer k) t anything (U8, Z.of_N b).
Proof.
  intros HK H T s r J Hs _.
  assert (TP : forall s0 : st, try_from_parsed_integer k (U8, Z.of_N b) s0 = Ok (U8, Z.of_N b) s0).
  { intros s0. destruct HK as [->| ->]; [reflexivity|]. unfold try_from_parsed_integer. reflexivity. }
  assert (HT : exists t', t = c_b :: c_sq :: t') by (destruct H; eauto).
  destruct HT as [t' ->]. unfold integer. eapply wp_bind_ok; [reflexivity|].
  eapply wp_bind_ok; [unfold peek_char_or_eof; rewrite Hs; reflexivity|]. cbn [N.eqb Pos.eqb].
  apply wp_bind. change (rest s = s_bsq ++ t' ++ r) in Hs.
  eapply wp_reads; [apply (reads_consume_str s_bsq)|exact J|exact Hs|exact Logic.I|]. intros s1 R1 A1. cbv iota.
  assert (FIN : forall s2 u, adv T s1 s2 -> rest s2 = c_sq :: r -> t' ++ r = u ++ c_sq :: r ->
    wp (q <- consume_char c_sq ;; if q then (r0 <- src ;; slice_before (rest s) r0 ;;; try_from_parsed_integer k (U8, Z.of_N b)) else fail EExpectedByteLiteral)
       (fun a' s' => a' = (U8, Z.of_N b) /\ rest s' = r /\ adv T s s') (fun _ _ => False) s2).
  { intros s2 u A2 R2 Q. apply wp_bind. eapply wp_reads; [apply (reads_consume_char c_sq)|apply A2|exact R2|exact Logic.I|]. intros s3 R3 A3. cbv iota.
    eapply wp_bind_ok; [reflexivity|]. rewrite R3.
    assert (SB : exists o, slice_before (rest s) r s3 = Ok o s3).
    { unfold slice_before. rewrite Hs, Q. replace (s_bsq ++ u ++ c_sq :: r) with ((s_bsq ++ u ++ [c_sq]) ++ r) by (rewrite <- !app_assoc; reflexivity).
      rewrite blen_app. replace (Nat.leb (blen r) _) with true by (symmetry; apply Nat.leb_le; lia).
      rewrite Nat.add_sub, btake_app. eexists. reflexivity. }
    destruct SB as [o SB]. eapply wp_bind_ok; [exact SB|]. eapply wp_ok; [apply TP|]. split; [reflexivity|]. split; [assumption|].
    eapply adv_trans; [exact A1|]. eapply adv_trans; eassumption. }
  unfold byte_literal. apply wp_bind. inversion H as [c LT NB|c b' SE|a da b' db D1 D2]; subst; cbn [app] in R1.
  - eapply wp_reads; [apply (reads_next_char b)|apply A1|exact R1|exact Logic.I|]. intros s2 R2 A2.
    replace (b =? c_bs) with false by lia. replace (b <? 128) with true by lia.
    apply wp_bind, wp_ret. apply (FIN s2 [b]); [assumption|assumption|reflexivity].
  - eapply wp_reads; [apply (reads_next_char c_bs)|apply A1|exact R1|exact Logic.I|]. intros s2 R2 A2. rewrite N.eqb_refl.
    apply wp_bind. apply wp_bind. eapply wp_reads; [apply (reads_escape_simple true true c b SE)|apply A2|exact R2|exact Logic.I|]. intros s3 R3 A3.
    apply wp_ret. apply (FIN s3 [c_bs; c]); [eapply adv_trans; eassumption|assumption|reflexivity].
  - eapply wp_reads; [apply (reads_next_char c_bs)|apply A1|exact R1|exact Logic.I|]. intros s2 R2 A2. rewrite N.eqb_refl.
    apply wp_bind. apply wp_bind. change (rest s2 = [120; a; b'] ++ c_sq :: r) in R2.
    eapply wp_reads; [apply (reads_escape_byte true [120; a; b'] (da * 16 + db)); now constructor|apply A2|exact R2|exact Logic.I|]. intros s3 R3 A3.
    apply wp_ret. apply (FIN s3 [c_bs; 120; a; b']); [eapply adv_trans; eassumption|assumption|reflexivity].
Qed.
Lemma byte_not_float t b r s : byte_lit t b -> rest s = t ++ r -> next_bytes_is_float s = Ok false s.
Proof.
  intros H Hs. assert (HT : exists t', t = c_b :: c_sq :: t') by (destruct H; eauto). destruct HT as [t' ->]. cbn [app] in Hs.
  unfold next_bytes_is_float. unfold bind at 1, peek_char. rewrite Hs. cbn [N.eqb Pos.eqb orb]. cbv zeta.
  unfold bind at 1. rewrite (next_while_from_eq is_float_char s [] (c_b :: c_sq :: t' ++ r)) by auto.
  unfold bind at 1, src. rewrite Hs. unfold bind at 1. cbn [bdrop of_slice]. unfold ret at 1. unfold bind at 1. cbn [takewhile is_float_char].
  change (of_slice _ s) with (Ok (A := str) [] s) at 1. cbv beta iota. unfold bind at 1.
  rewrite (next_while_from_eq is_int_char s [] (c_b :: c_sq :: t' ++ r)) by auto. unfold ret. f_equal.
Qed.
Lemma reads_any_byte t b : byte_lit t b -> reads any_number t anything (NInt U8 (Z.of_N b)).
Proof.
  intros H. apply reads_core.
  - intros r _. destruct H; reflexivity.
  - apply reads_core_int; [|apply reads_byte_literal; auto]. intros r s _ Hs. eapply byte_not_float; eassumption.
Qed.

(** how a number begins *)
Lemma num_lit_head n u : num_lit n u -> exists c u', u = c :: u' /\ tok c = true /\
  (c = c_b -> exists b, n = NInt U8 (Z.of_N b) /\ byte_lit u b).
Proof.
  assert (W : forall w f, (w, f) = (s_inf, f_inf) \/ (w, f) = (s_NaN, f_nan) -> exists c w', w = c :: w' /\ tok c = true /\ c <> c_b).
  { intros w f [Q|Q]; injection Q as -> _; do 2 eexists; (split; [reflexivity|]); (split; [now apply atok_tok|discriminate]). }
  assert (FW : forall w f, float_word w f -> exists c w', w = c :: w' /\ tok c = true /\ c <> c_b).
  { intros w f H. destruct H; do 2 eexists; (split; [reflexivity|]); (split; [now apply atok_tok|discriminate]). }
  assert (IL : forall t z, int_lit t z -> exists c w', t = c :: w' /\ tok c = true /\ c <> c_b).
  { intros t z [sg neg p base ds z0 SG BP N]. destruct (int_shape sg neg p base ds z0 SG BP N) as (sg' & neg' & c & t' & -> & SG' & D).
    destruct SG'; cbn [app]; do 2 eexists; (split; [reflexivity|]); try (split; [now apply atok_tok|discriminate]).
    split; [apply atok_tok; unfold atok; rewrite D; now rewrite orb_true_r|]. unfold is_digit in D. lia. }
  assert (SP : forall u v, spelled u v -> exists c w', u = c :: w' /\ tok c = true /\ c <> c_b).
  { intros [|c u0] v (NE & F & _); [contradiction|]. exists c, u0. split; [reflexivity|]. cbn in F. apply andb_prop in F as [F _].
    split; [now apply sub_float|]. intros ->. discriminate F. }
  assert (OK : forall u v, (exists c w', u = c :: w' /\ tok c = true /\ c <> c_b) -> exists c u', u ++ v = c :: u' /\ tok c = true /\
    (c = c_b -> exists b, n = NInt U8 (Z.of_N b) /\ byte_lit (u ++ v) b)).
  { intros u0 v (c & w' & -> & TC & NB). exists c, (w' ++ v). split; [reflexivity|]. split; [assumption|]. intros ->. contradiction. }
  assert (OK0 : forall u, (exists c w', u = c :: w' /\ tok c = true /\ c <> c_b) -> exists c u', u = c :: u' /\ tok c = true /\
    (c = c_b -> exists b, n = NInt U8 (Z.of_N b) /\ byte_lit u b)).
  { intros u0 H. destruct (OK u0 [] H) as (c & u' & Q & P). rewrite app_nil_r in *. exists c, u'. auto. }
  intros H. destruct H as [w f H|k w f H|k b t H|k z t R H].
  - eapply OK0, W, H.
  - eapply OK, W, H.
  - destruct H; [eapply OK0|eapply OK|eapply OK0|eapply OK]; eauto.
  - destruct H as [t H|t H|t b -> H ->]; [eapply OK0|eapply OK|]; eauto.
    assert (HT : exists t', t = c_b :: t') by (destruct H; eauto). destruct HT as [t' ->]. exists c_b, t'. split; [reflexivity|].
    split; [now apply atok_tok|]. eauto.
Qed.

Section K.
Variables k k' : str.
Hypothesis K : starts_not tok k.
Hypothesis K' : starts_not tok k'.

(** from [v ++ k'], too, [m] reads what it reads from [v ++ k], if it leaves [k] alone *)
Definition loc {A} (m : M A) : Prop := forall T T' v v1 s a s1 s', inv T s -> inv T' s' ->
  rest s = v ++ k -> m s = Ok a s1 -> rest s1 = v1 ++ k -> rest s' = v ++ k' ->
  exists s1', m s' = Ok a s1' /\ rest s1' = v1 ++ k' /\ adv T' s' s1'.

Lemma loc_par {A} (m : M A) : total m -> (forall v, parq k k' v m m) -> loc m.
Proof.
  intros TM H T T' v v1 s a s1 s' J J' Hs H1 R1 Hs'. specialize (H v s s' (conj Hs Hs')). rewrite H1 in H.
  destruct (m s') as [a' s1'| | |] eqn:Q; try contradiction. destruct H as (-> & v0 & B0 & B1). exists s1'.
  split; [reflexivity|]. split; [|eapply total_ok; eassumption]. rewrite R1 in B0. apply app_inv_tail in B0. now subst.
Qed.
Lemma loc_ret {A} (a : A) : loc (ret a).
Proof. apply loc_par; [apply total_ret|]. intros v. now apply par_ret. Qed.
Lemma loc_bind {A B} (m : M A) (f : A -> M B) : total m -> (forall a, total (f a)) -> loc m -> (forall a, loc (f a)) -> loc (bind m f).
Proof.
  intros TM TF HM HF T T' v v1 s b s1 s' J J' Hs H1 R1 Hs'. apply bind_ok in H1 as (a & s2 & H2 & H1).
  assert (A2 := total_ok _ _ _ _ _ TM J H2). assert (A1 := total_ok _ _ _ _ _ (TF a) (adv_inv _ _ _ A2) H1).
  destruct (adv_rest _ _ _ A1) as [x Hx]. rewrite R1, app_assoc in Hx.
  destruct (HM T T' v (x ++ v1) s a s2 s' J J' Hs H2 Hx Hs') as (s2' & H2' & R2' & A2').
  destruct (HF a T T' (x ++ v1) v1 s2 b s1 s2' (adv_inv _ _ _ A2) (adv_inv _ _ _ A2') Hx H1 R1 R2') as (s1' & H1' & R1' & A1').
  exists s1'. unfold bind. rewrite H2'. split; [assumption|]. split; [assumption|]. eapply adv_trans; eassumption.
Qed.
Lemma loc_look {A B} (g : str -> A) (m : M A) (f : A -> M B) : (forall s, m s = Ok (g (rest s)) s) -> (forall v, g (v ++ k) = g (v ++ k')) -> (forall a, loc (f a)) -> loc (bind m f).
Proof.
  intros HM HG HF T T' v v1 s b s1 s' J J' Hs H1 R1 Hs'. unfold bind in *. rewrite HM in H1. rewrite HM.
  rewrite Hs, HG, <- Hs' in H1. now apply (HF _ T T' v v1 s b s1 s').
Qed.
Lemma loc_consume_str w : forallb tok w = true -> loc (consume_str w).
Proof. intros TW. apply loc_par; [apply total_consume_str|]. intros v. now apply par_consume_str. Qed.

Lemma loc_any_number : loc any_number.
Proof.
  intros T T' v v1 s a s1 s' J J' Hs H1 R1 Hs'. destruct (any_number_sound T s a s1 J H1) as (u & Q & NL).
  rewrite Hs, R1 in Q. rewrite app_assoc in Q. apply app_inv_tail in Q. subst v.
  destruct (num_lit_head a u NL) as (c & u' & -> & TC & NB).
  destruct (starts_byte ((c :: u') ++ v1)) eqn:SB.
  - unfold starts_byte, starts_with in SB. change s_bsq with [c_b; c_sq] in SB. cbn [strip_prefix app] in SB.
    destruct (c_b =? c) eqn:CB; [|discriminate]. apply N.eqb_eq in CB. symmetry in CB. destruct (NB CB) as (b & -> & BL).
    assert (R := reads_any_byte _ _ BL T' s' (v1 ++ k') J'). rewrite <- app_assoc in Hs'. specialize (R Hs' Logic.I).
    Transparent wp. unfold wp in R. Opaque wp. destruct (any_number s') as [a s2| | |] eqn:Q; try contradiction.
    destruct R as (-> & R2 & A2). exists s2. auto.
  - assert (P := par_any_number k k' K K' ((c :: u') ++ v1) ltac:(discriminate) SB s s' (conj Hs Hs')). rewrite H1 in P.
    destruct (any_number s') as [a' s2| | |] eqn:Q; try contradiction. destruct P as (<- & v0 & B0 & B1). exists s2.
    split; [reflexivity|]. split; [|eapply total_ok; [apply total_any_number|exact J'|exact Q]]. rewrite R1 in B0. apply app_inv_tail in B0. now subst.
Qed.
Lemma number_start_local c v : is_number_start c (v ++ k) = is_number_start c (v ++ k').
Proof. unfold is_number_start. now rewrite !starts_local by (auto; now apply word_tok). Qed.
Lemma first_tok c r : is_number_start c r = true -> tok c = true.
Proof. unfold is_number_start. intros H. apply atok_tok. unfold atok. unfold is_alpha, is_digit in *. lia. Qed.
Lemma num_start_local v : num_start (v ++ k) = num_start (v ++ k').
Proof.
  destruct v as [|c v]; [|cbn [app]; unfold num_start; apply (number_start_local c (c :: v))]. cbn [app].
  assert (Z : forall r, starts_not tok r -> num_start r = false).
  { intros [|c r] N; [reflexivity|]. cbn in *. destruct (is_number_start c (c :: r)) eqn:Q; [|reflexivity]. apply first_tok in Q. congruence. }
  now rewrite !Z.
Qed.
Lemma total_src {A} (f : str -> M A) : (forall r, total (f r)) -> total (r <- src ;; f r).
Proof. intros H T s J. eapply wp_bind_ok; [reflexivity|]. now apply H. Qed.
Lemma loc_range n : loc (float_range_or_value n).
Proof.
  assert (T2 : forall g : num -> value, total (e <- any_number ;; ret (g e))) by (intros g; apply total_bind; [apply total_any_number|intros; apply total_ret]).
  assert (L2 : forall g : num -> value, loc (e <- any_number ;; ret (g e))).
  { intros g. apply loc_bind; [apply total_any_number|intros; apply total_ret|apply loc_any_number|intros; apply loc_ret]. }
  unfold float_range_or_value.
  assert (T3 : total (r <- src ;; if num_start r then e <- any_number ;; ret (range_entries [(s_start, n); (s_end, e)]) else ret (range_entries [(s_start, n)]))).
  { apply total_src. intros r. destruct (num_start r); [apply (T2 (fun e => range_entries _))|apply total_ret]. }
  assert (T4 : total (d <- consume_str s_dotdot ;; if d then (r <- src ;; if num_start r then e <- any_number ;; ret (range_entries [(s_start, n); (s_end, e)]) else ret (range_entries [(s_start, n)])) else ret (XNum n))).
  { apply total_bind; [apply total_consume_str|]. intros []; [exact T3|apply total_ret]. }
  apply loc_bind; [apply total_consume_str|intros []; [apply (T2 (fun e => range_entries _))|exact T4]|apply loc_consume_str; now apply word_tok|].
  intros []; [apply (L2 (fun e => range_entries _))|].
  apply loc_bind; [apply total_consume_str|intros []; [exact T3|apply total_ret]|apply loc_consume_str; now apply word_tok|].
  intros []; [|apply loc_ret].
  intros T T' v v1 s b s1 s' J J' Hs H1 R1 Hs'. unfold bind at 1, src. unfold bind at 1, src in H1. rewrite Hs, num_start_local, <- Hs' in H1.
  destruct (num_start (rest s')).
  - now apply (L2 (fun e => range_entries _) T T' v v1 s b s1 s').
  - now apply (loc_ret (range_entries [(s_start, n)]) T T' v v1 s b s1 s').
Qed.
End K.
End S.
