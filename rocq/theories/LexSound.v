(** What the lexer accepts: every text read as a string, byte string, character
    or integer is one of the literals of [Lit]. *)
From Coq Require Import String Ascii NArith ZArith Lia Bool List.
From Coq Require Import ZifyBool ZifyNat ZifyN.
From Verif Require Import Base Base64 Facts Value Data Parse Wp EnvOk LexSafe Lit LexWs LexRead Inv.
Import ListNotations.
Open Scope N_scope.
Open Scope list_scope.
Open Scope m_scope.

(** ** Steps *)
Section S.
Context {E : Env}.
Lemma next_char_run s c s' : next_char s = Ok c s' -> rest s = c :: rest s'.
Proof. unfold next_char. destruct (rest s) as [|d r]; [discriminate|]. intros H. injection H as <- <-. reflexivity. Qed.
Lemma consume_char_run c s b s' : consume_char c s = Ok b s' -> if b then rest s = c :: rest s' else s' = s.
Proof.
  intros H. rewrite consume_char_eq in H. destruct (rest s) as [|d r]; [now injection H as <- <-|].
  destruct (d =? c) eqn:D; injection H as <- <-; [|reflexivity]. apply N.eqb_eq in D as ->. reflexivity.
Qed.
Lemma consume_str_run p s b s' : consume_str p s = Ok b s' -> if b then rest s = p ++ rest s' else s' = s.
Proof.
  intros H. rewrite consume_str_eq in H. destruct (strip_prefix p (rest s)) as [r|] eqn:D; injection H as <- <-; [|reflexivity].
  now apply strip_prefix_some in D.
Qed.
Lemma expect_char_run c e s x s' : expect_char c e s = Ok x s' -> rest s = c :: rest s'.
Proof.
  intros H. apply bind_ok in H as (b & s1 & H1 & H). apply consume_char_run in H1.
  destruct b; [|now apply fail_ok in H]. now apply ret_ok in H as [_ ->].
Qed.
Lemma advance_run n s x s' : advance_bytes n s = Ok x s' -> exists p, rest s = p ++ rest s' /\ blen p = n.
Proof.
  unfold advance_bytes. destruct (bdrop n (rest s)) as [r|] eqn:B; [|discriminate]. intros H. injection H as _ <-.
  apply bdrop_split in B. exact B.
Qed.
Lemma blen_prefix a a' b b' : blen a = blen a' -> a ++ b = a' ++ b' -> a = a' /\ b = b'.
Proof.
  intros L Q. assert (B : bdrop (blen a) (a ++ b) = bdrop (blen a') (a' ++ b')) by now rewrite L, Q.
  rewrite !bdrop_app in B. injection B as ->. split; [|reflexivity]. now apply app_inv_tail in Q.
Qed.
Lemma advance_exact p r s x s' : rest s = p ++ r -> advance_bytes (blen p) s = Ok x s' -> rest s' = r.
Proof.
  intros Q H. apply advance_run in H as (p' & Q' & L). rewrite Q in Q'. symmetry in L. now apply blen_prefix in Q' as [_ ->].
Qed.

(** ** Escapes *)
Lemma hex_val_digit c d : hex_val c = Some d -> hex_digit c d.
Proof.
  unfold hex_val, is_digit. destruct ((48 <=? c) && (c <=? 57)) eqn:A1.
  { intros H. injection H as <-. assert (Q : c = 48 + (c - c_0)) by lia. rewrite Q at 1. apply (hd_num (c - c_0)). lia. }
  destruct ((97 <=? c) && (c <=? 102)) eqn:A2.
  { intros H. injection H as <-. assert (Q : c = 87 + (10 + (c - 97))) by lia. rewrite Q at 1. apply (hd_low (10 + (c - 97))). lia. }
  destruct ((65 <=? c) && (c <=? 70)) eqn:A3; [|discriminate].
  intros H. injection H as <-. assert (Q : c = 55 + (10 + (c - 65))) by lia. rewrite Q at 1. apply (hd_up (10 + (c - 65))). lia.
Qed.
Lemma decode_hex_run c s d s' : decode_hex c s = Ok d s' -> hex_digit c d /\ s' = s.
Proof.
  unfold decode_hex. destruct (hex_val c) as [d'|] eqn:H; [|discriminate]. intros Q. apply ret_ok in Q as [-> ->].
  split; [now apply hex_val_digit|reflexivity].
Qed.
Lemma decode_ascii_run s n s' : decode_ascii_escape s = Ok n s' ->
  exists a da b db, rest s = a :: b :: rest s' /\ hex_digit a da /\ hex_digit b db /\ n = da * 16 + db.
Proof.
  intros H. apply bind_ok in H as (a & s1 & H1 & H). apply next_char_run in H1.
  apply bind_ok in H as (da & s2 & H2 & H). apply decode_hex_run in H2 as [D1 ->].
  apply bind_ok in H as (b & s3 & H3 & H). apply next_char_run in H3.
  apply bind_ok in H as (db & s4 & H4 & H). apply decode_hex_run in H4 as [D2 ->].
  apply ret_ok in H as [-> ->]. exists a, da, b, db. rewrite H1, H3. auto.
Qed.

(** bytes read so far that are no character yet *)
Definition undecided (acc : bytes) : Prop :=
  acc <> [] /\ forall p q c r, acc = p ++ q -> p <> [] -> from_utf8 p <> Some (c :: r).
Lemma from_utf8_first acc x c r : (acc = [] \/ undecided acc) -> from_utf8 (acc ++ [x]) = Some (c :: r) ->
  is_scalar c = true /\ enc_char c = acc ++ [x].
Proof.
  intros U H. apply from_utf8_spec in H as [W Q]. inversion W as [|? ? S W']; subst. split; [assumption|].
  change (enc (c :: r)) with (enc_char c ++ enc r) in Q. destruct r as [|c' r].
  { cbn [enc flat_map] in Q. now rewrite app_nil_r in Q. }
  exfalso. assert (NE : forall c, enc_char c <> []) by (intros z; unfold enc_char; repeat destruct (_ <? _); discriminate).
  assert (QA : exists q, acc = enc_char c ++ q).
  { assert (TL : exists y z, enc (c' :: r) = y ++ [z]).
    { destruct (exists_last (l := enc (c' :: r))) as (y & z & Z); [|exists y, z; exact Z].
      cbn. destruct (enc_char c') eqn:QE; [now apply NE in QE|discriminate]. }
    destruct TL as (y & z & Z). rewrite Z, app_assoc in Q.
    apply app_inj_tail in Q as [-> _]. eauto. }
  destruct QA as [q ->]. destruct U as [U|[_ U]].
  { apply app_eq_nil in U as [U _]. now apply NE in U. }
  apply (U (enc_char c) q c []); [reflexivity|apply NE|].
  assert (F := from_utf8_enc [c]). cbn [enc flat_map] in F. rewrite app_nil_r in F. apply F. constructor; [assumption|constructor].
Qed.
Lemma undecided_snoc acc x : acc = [] \/ undecided acc -> (forall c r, from_utf8 (acc ++ [x]) <> Some (c :: r)) -> undecided (acc ++ [x]).
Proof.
  intros U N. split; [now destruct acc|]. intros p q c r Q NP. destruct q as [|y q] using rev_ind.
  - rewrite app_nil_r in Q. subst p. apply N.
  - rewrite app_assoc in Q. apply app_inj_tail in Q as [-> _]. destruct U as [U|[_ U]].
    + apply app_eq_nil in U as [-> _]. contradiction.
    + apply (U p q); auto.
Qed.
Lemma escape_more_run n : forall acc s e s', undecided acc -> escape_more n acc s = Ok e s' ->
  exists t bs c, rest s = c_bs :: t ++ rest s' /\ hex_bytes t bs /\ e = EscUtf8 c /\ is_scalar c = true /\ enc_char c = acc ++ bs.
Proof.
  induction n as [|n IH]; intros acc s e s' U H; cbn [escape_more] in H; [now apply fail_ok in H|].
  apply bind_ok in H as (b & s1 & H1 & H). apply consume_str_run in H1. destruct b; [|now apply fail_ok in H].
  apply bind_ok in H as (x & s2 & H2 & H). apply decode_ascii_run in H2 as (a & da & b & db & Q2 & D1 & D2 & ->).
  cbv zeta in H. destruct (from_utf8 (acc ++ [da * 16 + db])) as [[|c r]|] eqn:F.
  - destruct (IH _ _ _ _ (undecided_snoc acc (da * 16 + db) (or_intror U) ltac:(intros ? ? ZZ; discriminate (eq_trans (eq_sym F) ZZ))) H)
      as (t & bs & c & Q & HB & -> & S & QE).
    exists (120 :: a :: b :: c_bs :: t), ((da * 16 + db) :: bs), c. rewrite H1, Q2, Q. split; [reflexivity|].
    split; [now constructor|]. split; [reflexivity|]. split; [assumption|]. rewrite QE, <- app_assoc. reflexivity.
  - apply ret_ok in H as [-> ->]. destruct (from_utf8_first _ _ _ _ (or_intror U) F) as [S QE].
    exists [120; a; b], [da * 16 + db], c. rewrite H1, Q2. split; [reflexivity|]. split; [now constructor|]. auto.
  - destruct (IH _ _ _ _ (undecided_snoc acc (da * 16 + db) (or_intror U) ltac:(intros ? ? ZZ; discriminate (eq_trans (eq_sym F) ZZ))) H)
      as (t & bs & c & Q & HB & -> & S & QE).
    exists (120 :: a :: b :: c_bs :: t), ((da * 16 + db) :: bs), c. rewrite H1, Q2, Q. split; [reflexivity|].
    split; [now constructor|]. split; [reflexivity|]. split; [assumption|]. rewrite QE, <- app_assoc. reflexivity.
Qed.
Lemma unicode_digits_run n : forall count acc s k v s', unicode_digits n count acc s = Ok (k, v) s' ->
  exists t, rest s = t ++ rest s' /\ (k = count + length t)%nat /\ (length t <= n)%nat /\
    (forall t0, hex_number t0 acc -> hex_number (t0 ++ t) v).
Proof.
  induction n as [|n IH]; intros count acc s k v s' H; cbn [unicode_digits] in H.
  - apply ret_ok in H as [Q ->]. injection Q as -> ->. exists []. cbn. rewrite Nat.add_0_r.
    split; [reflexivity|]. split; [reflexivity|]. split; [lia|]. intros t0. now rewrite app_nil_r.
  - apply bind_ok in H as (c & s1 & H1 & H). unfold peek_char_or_eof in H1. destruct (rest s) as [|d r] eqn:QR; [discriminate|].
    injection H1 as <- <-. destruct (d =? c_rc).
    + apply ret_ok in H as [Q ->]. injection Q as -> ->. exists []. cbn. rewrite Nat.add_0_r.
      split; [now rewrite QR|]. split; [reflexivity|]. split; [lia|]. intros t0. now rewrite app_nil_r.
    + apply bind_ok in H as (x & s1 & H1 & H).
      assert (Q1 : rest s1 = r) by (unfold skip_next_char, try, next_char in H1; rewrite QR in H1; now injection H1 as _ <-).
      apply bind_ok in H as (dv & s2 & H2 & H). apply decode_hex_run in H2 as [D ->].
      apply IH in H as (t & Q & -> & L & HN). exists (d :: t). cbn [length app].
      split; [rewrite <- Q1, Q; reflexivity|]. split; [lia|]. split; [lia|].
      intros t0 H0. change (t0 ++ d :: t) with (t0 ++ [d] ++ t). rewrite app_assoc. apply HN. now constructor.
Qed.

Definition esc_bytes (e : escape) : bytes := match e with EscAscii b => [b] | EscUtf8 c => enc_char c end.
Lemma parse_escape_run binary ic s e s' : parse_escape binary ic s = Ok e s' ->
  exists t, rest s = t ++ rest s' /\ escape_seq binary t (esc_bytes e) /\
    (binary = true -> forall c, e = EscUtf8 c -> exists r, t = 117 :: r) /\
    (ic = true -> forall c, binary = false -> e = EscUtf8 c -> (exists a da b db, t = [120; a; b] /\ hex_digit a da /\ hex_digit b db /\ c = da * 16 + db /\ c < 128) \/
       exists h, t = 117 :: c_lc :: h ++ [c_rc] /\ (1 <= length h <= 6)%nat /\ hex_number h c /\ is_scalar c = true) /\
    (forall b, e = EscAscii b -> (exists c, t = [c] /\ simple_escape c b) \/
       (binary = true /\ exists a da b' db, t = [120; a; b'] /\ hex_digit a da /\ hex_digit b' db /\ b = da * 16 + db)).
Proof.
  intros H. unfold parse_escape in H. apply bind_ok in H as (c & s1 & H1 & H). apply next_char_run in H1.
  assert (SIMPLE : forall b, simple_escape c b -> ret (EscAscii b) s1 = Ok e s' ->
    exists t, rest s = t ++ rest s' /\ escape_seq binary t (esc_bytes e) /\
    (binary = true -> forall c, e = EscUtf8 c -> exists r, t = 117 :: r) /\
    (ic = true -> forall c, binary = false -> e = EscUtf8 c -> (exists a da b db, t = [120; a; b] /\ hex_digit a da /\ hex_digit b db /\ c = da * 16 + db /\ c < 128) \/
       exists h, t = 117 :: c_lc :: h ++ [c_rc] /\ (1 <= length h <= 6)%nat /\ hex_number h c /\ is_scalar c = true) /\
    (forall b, e = EscAscii b -> (exists c, t = [c] /\ simple_escape c b) \/
       (binary = true /\ exists a da b' db, t = [120; a; b'] /\ hex_digit a da /\ hex_digit b' db /\ b = da * 16 + db))).
  { intros b SE Q. apply ret_ok in Q as [-> ->]. exists [c]. split; [exact H1|]. split; [now constructor|].
    split; [discriminate|]. split; [discriminate|]. intros b' Q. injection Q as <-. left. eauto. }
  repeat match type of H with (if ?c0 =? ?k then ret _ else _) _ = _ =>
    destruct (c0 =? k) eqn:?QC; [apply N.eqb_eq in QC; subst c0; eapply SIMPLE; [constructor|exact H]|clear QC] end.
  destruct (c =? 120) eqn:QX.
  { apply N.eqb_eq in QX. subst c. apply bind_ok in H as (b & s2 & H2 & H).
    apply decode_ascii_run in H2 as (a & da & b' & db & Q2 & D1 & D2 & ->). destruct binary.
    - apply ret_ok in H as [-> ->]. exists [120; a; b']. rewrite H1, Q2. split; [reflexivity|].
      split; [apply es_byte; [reflexivity|now constructor]|]. split; [discriminate|]. split; [discriminate|].
      intros b Q. injection Q as <-. right. split; [reflexivity|]. exists a, da, b', db. auto.
    - destruct (from_utf8 [da * 16 + db]) as [[|c r]|] eqn:F.
      + destruct ic; [now apply fail_ok in H|].
        apply escape_more_run in H as (t & bs & c & Q & HB & -> & S & QE);
          [|apply (undecided_snoc []); [now left|intros ? ? ZZ; discriminate (eq_trans (eq_sym F) ZZ)]].
        exists (120 :: a :: b' :: c_bs :: t). rewrite H1, Q2, Q. split; [reflexivity|].
        split; [cbn [esc_bytes]; apply es_utf8; [reflexivity|assumption|rewrite QE; now constructor]|].
        split; [discriminate|]. split; [discriminate|discriminate].
      + apply ret_ok in H as [-> ->]. destruct (from_utf8_first [] _ _ _ (or_introl eq_refl) F) as [S QE].
        exists [120; a; b']. rewrite H1, Q2. split; [reflexivity|].
        split; [cbn [esc_bytes]; apply es_utf8; [reflexivity|assumption|rewrite QE; now constructor]|].
        split; [discriminate|]. split; [|discriminate]. intros _ c' _ Q. injection Q as <-. left.
        exists a, da, b', db. cbn [app] in QE. unfold enc_char in QE.
        destruct (c <? 128) eqn:LT; [|repeat match type of QE with context [if ?b then _ else _] => destruct b end; discriminate]. injection QE as ->. split; [reflexivity|]. split; [assumption|]. split; [assumption|]. split; [reflexivity|lia].
      + destruct ic; [now apply fail_ok in H|].
        apply escape_more_run in H as (t & bs & c & Q & HB & -> & S & QE);
          [|apply (undecided_snoc []); [now left|intros ? ? ZZ; discriminate (eq_trans (eq_sym F) ZZ)]].
        exists (120 :: a :: b' :: c_bs :: t). rewrite H1, Q2, Q. split; [reflexivity|].
        split; [cbn [esc_bytes]; apply es_utf8; [reflexivity|assumption|rewrite QE; now constructor]|].
        split; [discriminate|]. split; [discriminate|discriminate]. }
  destruct (c =? 117) eqn:QU; [|now apply fail_ok in H]. apply N.eqb_eq in QU. subst c.
  apply bind_ok in H as (x & s2 & H2 & H). apply expect_char_run in H2.
  apply bind_ok in H as ([k v] & s3 & H3 & H). apply unicode_digits_run in H3 as (t & Q & -> & L & HN).
  destruct (Nat.eqb (0 + length t) 0) eqn:K; [now apply fail_ok in H|]. apply Nat.eqb_neq in K.
  apply bind_ok in H as (y & s4 & H4 & H). apply expect_char_run in H4.
  destruct (is_scalar v) eqn:S; [|now apply fail_ok in H]. apply ret_ok in H as [-> ->].
  assert (HN' := HN [] hn_nil). cbn [app] in HN'.
  exists (117 :: c_lc :: t ++ [c_rc]). rewrite H1, H2, Q, H4. split; [flat; reflexivity|].
  split; [apply es_unicode; [lia|assumption|assumption]|]. split; [eauto|]. split; [|discriminate].
  intros _ c _ Q'. injection Q' as <-. right. exists t. split; [reflexivity|]. split; [cbn in K; unfold str, char in *; lia|auto].
Qed.

(** ** Strings *)
Lemma quoted_plain binary p : forallb (fun c => negb ((c =? c_dq) || (c =? c_bs))) p = true -> quoted binary p (enc p).
Proof.
  induction p as [|c p IH]; [constructor|]. cbn [forallb enc flat_map]. intros H. apply andb_prop in H as [H1 H2].
  apply q_plain; [intros ->; discriminate|intros ->; discriminate|auto].
Qed.
Lemma quoted_app binary a ab b bb : quoted binary a ab -> quoted binary b bb -> quoted binary (a ++ b) (ab ++ bb).
Proof.
  induction 1 as [|c t bs N1 N2 H IH|e eb t bs HE H IH]; intros HB; [assumption| |].
  - cbn [app]. rewrite <- app_assoc. constructor; auto.
  - change ((c_bs :: e ++ t) ++ b) with (c_bs :: (e ++ t) ++ b). rewrite <- !app_assoc. constructor; auto.
Qed.
Lemma escaped_loop_run binary f : forall i acc s p r bs n s', rest s = p ++ c_bs :: r -> blen p = i ->
  escaped_loop f binary i acc s = Ok (bs, n) s' ->
  exists e t bb r', r = e ++ rest s' /\ rest s' = t ++ c_dq :: r' /\ n = (blen t + 1)%nat /\
    bs = acc ++ bb /\ quoted binary (c_bs :: e ++ t) bb.
Proof.
  induction f as [|f IH]; intros i acc s p r bs n s' Q L H; cbn [escaped_loop] in H; [discriminate|].
  apply bind_ok in H as (x & s1 & H1 & H).
  replace (i + 1)%nat with (blen (p ++ [c_bs])) in H1 by (rewrite blen_app, L; reflexivity).
  apply advance_exact with (r := r) in H1; [|rewrite Q; flat; reflexivity].
  apply bind_ok in H as (e & s2 & H2 & H). apply parse_escape_run in H2 as (t & Q2 & ES & _). rewrite H1 in Q2.
  cbv zeta in H. change (match e with EscAscii b => [b] | EscUtf8 c => enc_char c end) with (esc_bytes e) in H.
  apply bind_ok in H as (y & s3 & H3 & H). apply src_ok in H3 as [-> ->].
  destruct (find_char (fun c => (c =? c_dq) || (c =? c_bs)) (rest s2)) as [[pre post]|] eqn:FC; [|now apply fail_ok in H].
  apply find_char_some in FC as (QS & FB & (d & q & -> & HD)).
  assert (QP := quoted_plain binary pre FB).
  destruct (d =? c_bs) eqn:DB.
  - apply N.eqb_eq in DB. subst d.
    apply (IH _ _ _ pre q) in H as (e' & t' & bb & r' & -> & Q' & -> & -> & QB); [|exact QS|reflexivity].
    exists (t ++ pre ++ c_bs :: e'), t', (esc_bytes e ++ enc pre ++ bb), r'.
    split; [rewrite Q2, QS; flat; reflexivity|]. split; [exact Q'|]. split; [reflexivity|]. split; [flat; reflexivity|].
    flat. apply q_escape; [assumption|]. apply quoted_app; assumption.
  - apply ret_ok in H as [QR ->]. injection QR as -> ->.
    assert (d = c_dq) as -> by (rewrite orb_false_r in HD; now apply N.eqb_eq in HD).
    exists t, pre, (esc_bytes e ++ enc pre), q. split; [exact Q2|]. split; [exact QS|]. split; [reflexivity|].
    split; [flat; reflexivity|]. apply q_escape; [assumption|assumption].
Qed.
Lemma escaped_buf_run binary s bs n s' : escaped_byte_buf binary s = Ok (bs, n) s' ->
  exists e t r, rest s = e ++ rest s' /\ rest s' = t ++ c_dq :: r /\ n = (blen t + 1)%nat /\ quoted binary (e ++ t) bs.
Proof.
  intros H. unfold escaped_byte_buf in H. apply bind_ok in H as (x & s1 & H1 & H). apply src_ok in H1 as [-> ->].
  destruct (find_char (fun c => c =? c_dq) (rest s)) as [[pre post]|] eqn:FC; [|now apply fail_ok in H].
  apply find_char_some in FC as (QS & FB & (d & q & -> & HD)). apply N.eqb_eq in HD. subst d.
  destruct (find_char (fun c => c =? c_bs) pre) as [[pre' post']|] eqn:FC'.
  - apply find_char_some in FC' as (QP & FB' & (d & q' & -> & HD)). apply N.eqb_eq in HD. subst d pre.
    assert (FP : forallb (fun c => negb ((c =? c_dq) || (c =? c_bs))) pre' = true).
    { rewrite forallb_app in FB. apply andb_prop in FB as [FB _]. rewrite forallb_forall in *. intros c IN.
      specialize (FB c IN). specialize (FB' c IN). cbv beta in *. destruct (c =? c_dq), (c =? c_bs); auto. }
    apply (escaped_loop_run binary _ _ _ s pre' (q' ++ c_dq :: q)) in H as (e & t & bb & r' & Q & Q' & -> & -> & QB);
      [|rewrite QS; flat; reflexivity|reflexivity].
    exists (pre' ++ c_bs :: e), t, r'. split; [rewrite QS; flat; do 2 f_equal; exact Q|]. split; [assumption|]. split; [reflexivity|].
    flat. apply quoted_app; [now apply quoted_plain|assumption].
  - apply ret_ok in H as [QR ->]. injection QR as -> ->. apply Facts.find_char_none in FC'.
    exists [], pre, q. split; [reflexivity|]. split; [assumption|]. split; [reflexivity|]. cbn [app]. apply quoted_plain.
    rewrite forallb_forall in *. intros c IN. specialize (FB c IN). specialize (FC' c IN). cbv beta in *. destruct (c =? c_dq), (c =? c_bs); auto.
Qed.
Lemma takewhile_hash s : exists n r, s = repeat c_hash n ++ r /\ takewhile (fun c => c =? c_hash) s = repeat c_hash n.
Proof.
  induction s as [|c s (n & r & Q & TW)]; [exists 0%nat, []; auto|]. cbn [takewhile]. destruct (c =? c_hash) eqn:C.
  - apply N.eqb_eq in C. subst c. exists (S n), r. cbn [repeat app]. rewrite TW. split; [now rewrite Q at 1|reflexivity].
  - exists 0%nat, (c :: s). auto.
Qed.
Lemma blen_hashes n : blen (repeat c_hash n) = n.
Proof. induction n as [|n IH]; [reflexivity|]. cbn [repeat blen]. rewrite IH. reflexivity. Qed.
Lemma find_str_first p s a b : find_str p s = Some (a, b) -> forall x y, s = x ++ p ++ y -> (length a <= length x)%nat.
Proof.
  revert a b. induction s as [|c s IH]; intros a b H x y Q.
  - cbn in H. destruct (starts_with p []); [injection H as <- <-; cbn; lia|discriminate].
  - cbn [find_str] in H. destruct (starts_with p (c :: s)) eqn:SW; [injection H as <- <-; cbn; lia|].
    destruct (find_str p s) as [[a' b']|] eqn:F; [|discriminate]. injection H as <- <-.
    destruct x as [|c' x]; [cbn [app] in Q; rewrite Q in SW; unfold starts_with in SW; now rewrite strip_prefix_app in SW|].
    injection Q as <- Q. cbn [length]. specialize (IH _ _ eq_refl x y Q). lia.
Qed.
Lemma raw_buf_run s bs n s' : raw_byte_buf s = Ok (bs, n) s' ->
  exists k t r, rest s = repeat c_hash k ++ c_dq :: rest s' /\ rest s' = t ++ c_dq :: repeat c_hash k ++ r /\
    n = (blen t + k + 1)%nat /\ bs = enc t /\ raw_body k t.
Proof.
  intros H. unfold raw_byte_buf in H. apply bind_ok in H as (m & s1 & H1 & H).
  unfold next_chars_while_len, next_chars_while_from_len in H1.
  apply bind_ok in H1 as (x & s2 & H2 & H1). apply src_ok in H2 as [-> ->].
  apply bind_ok in H1 as (x & s2 & H2 & H1). apply of_slice_ok in H2 as [H2 ->]. rewrite bdrop_0 in H2. injection H2 as <-.
  apply ret_ok in H1 as [-> ->].
  destruct (takewhile_hash (rest s)) as (k & r & Q & TW). rewrite TW, blen_hashes in H.
  apply bind_ok in H as (x & s2 & H2 & H). apply src_ok in H2 as [-> ->].
  apply bind_ok in H as (hs & s2 & H2 & H). apply of_slice_ok in H2 as [H2 ->].
  rewrite Q in H2. rewrite <- (blen_hashes k) in H2 at 1. rewrite btake_app in H2. injection H2 as <-.
  apply bind_ok in H as (x & s2 & H2 & H). rewrite <- (blen_hashes k) in H2. apply advance_exact with (r := r) in H2; [|exact Q].
  apply bind_ok in H as (y & s3 & H3 & H). apply expect_char_run in H3.
  apply bind_ok in H as (z & s4 & H4 & H). apply src_ok in H4 as [-> ->].
  destruct (find_str (c_dq :: repeat c_hash k) (rest s3)) as [[pre post]|] eqn:FS; [|now apply fail_ok in H].
  apply ret_ok in H as [QR ->]. injection QR as -> ->. assert (FF := find_str_first _ _ _ _ FS).
  apply find_str_some in FS as (QS & r' & ->).
  exists k, pre, r'. split; [rewrite Q, <- H2, H3; reflexivity|]. split; [exact QS|].
  split; [reflexivity|]. split; [reflexivity|]. intros a b ->.
  specialize (FF a (b ++ c_dq :: repeat c_hash k ++ r')). assert (length (a ++ c_dq :: repeat c_hash k ++ b) <= length a)%nat.
  { apply FF. rewrite QS. flat. reflexivity. }
  rewrite app_length in H. cbn [length] in H. lia.
Qed.

(** a character is told by its bytes, even if it is no scalar value *)
Lemma cons_inj {A} (a b : A) l m : a :: l = b :: m -> a = b /\ l = m.
Proof. intros H. injection H as -> ->. auto. Qed.
Lemma enc_char_prefix c c' r r' : is_scalar c' = true -> enc_char c ++ r = enc_char c' ++ r' -> c = c' /\ r = r'.
Proof.
  intros S Q. unfold enc_char in Q. assert (HC : c' < 1114112) by (unfold is_scalar in S; lia).
  destruct (c <? 128) eqn:A1, (c' <? 128) eqn:B1, (c <? 2048) eqn:A2, (c' <? 2048) eqn:B2, (c <? 65536) eqn:A3, (c' <? 65536) eqn:B3;
    try (exfalso; lia); cbn [app] in Q;
    repeat match goal with H : _ :: _ = _ :: _ |- _ => apply cons_inj in H as [? H] end;
    (split; [|exact Q] || exfalso); Z.to_euclidean_division_equations; lia.
Qed.
Lemma enc_wf_inj s : wf_str s -> forall t, enc t = enc s -> t = s.
Proof.
  assert (NE : forall c, enc_char c <> []) by (intros z; unfold enc_char; repeat destruct (_ <? _); discriminate).
  induction 1 as [|c s S W IH]; intros t Q.
  - destruct t as [|d t]; [reflexivity|]. cbn in Q. apply app_eq_nil in Q as [Q _]. now apply NE in Q.
  - destruct t as [|d t]; cbn [enc flat_map] in Q.
    + symmetry in Q. apply app_eq_nil in Q as [Q _]. now apply NE in Q.
    + apply enc_char_prefix in Q as [-> Q]; [|assumption]. f_equal. now apply IH.
Qed.

Lemma finish_string_run m s v s' : finish_string m s = Ok v s' -> exists bs n s1 p, m s = Ok (bs, n) s1 /\
  wf_str v /\ bs = enc v /\ rest s1 = p ++ rest s' /\ blen p = n.
Proof.
  intros H. apply bind_ok in H as ([bs n] & s1 & H1 & H). cbn [fst snd] in H.
  destruct (from_utf8 bs) as [u|] eqn:F; [|now apply fail_ok in H]. apply bind_ok in H as (x & s2 & H2 & H).
  apply ret_ok in H as [-> ->]. apply advance_run in H2 as (p & Q & L). apply from_utf8_spec in F as [W ->].
  exists (enc u), n, s1, p. auto.
Qed.
Lemma escaped_string_run s v s' : escaped_string s = Ok v s' ->
  exists t, rest s = t ++ c_dq :: rest s' /\ wf_str v /\ quoted false t (enc v).
Proof.
  intros H. apply finish_string_run in H as (bs & n & s1 & p & H & W & -> & Q & L).
  apply escaped_buf_run in H as (e & t & r & Q1 & Q2 & -> & QB).
  rewrite Q2 in Q. assert (Q3 : (t ++ [c_dq]) ++ r = p ++ rest s') by (rewrite <- Q; flat; reflexivity).
  apply blen_prefix in Q3 as [<- ->]; [|rewrite blen_app; cbn [blen]; rewrite L; reflexivity].
  exists (e ++ t). rewrite Q1, Q2. split; [flat; reflexivity|]. auto.
Qed.
Lemma raw_string_run s v s' : raw_string s = Ok v s' ->
  exists k, rest s = repeat c_hash k ++ c_dq :: v ++ c_dq :: repeat c_hash k ++ rest s' /\ wf_str v /\ raw_body k v.
Proof.
  intros H. apply finish_string_run in H as (bs & n & s1 & p & H & W & -> & Q & L).
  apply raw_buf_run in H as (k & t & r & Q1 & Q2 & -> & QE & RB). symmetry in QE. apply enc_wf_inj in QE; [|assumption]. subst t.
  rewrite Q2 in Q. assert (Q3 : (v ++ c_dq :: repeat c_hash k) ++ r = p ++ rest s') by (rewrite <- Q; flat; reflexivity).
  apply blen_prefix in Q3 as [<- ->]; [|rewrite blen_app; cbn [blen]; rewrite L, blen_hashes; change (len_utf8 c_dq) with 1%nat; lia].
  exists k. rewrite Q1, Q2. split; [flat; reflexivity|]. auto.
Qed.
Lemma parse_string_sound s v s' : parse_string s = Ok v s' -> exists t, rest s = t ++ rest s' /\ string_lit t v.
Proof.
  intros H. unfold parse_string in H. apply bind_ok in H as (b & s1 & H1 & H). apply consume_char_run in H1. destruct b.
  - apply escaped_string_run in H as (t & Q & W & QB). exists (c_dq :: t ++ [c_dq]). rewrite H1, Q.
    split; [flat; reflexivity|]. now constructor.
  - subst s1. apply bind_ok in H as (b & s1 & H1 & H). apply consume_char_run in H1. destruct b; [|now apply fail_ok in H].
    apply raw_string_run in H as (k & Q & W & RB). exists (c_r :: repeat c_hash k ++ c_dq :: v ++ c_dq :: repeat c_hash k).
    rewrite H1, Q. split; [flat; reflexivity|]. now constructor.
Qed.

(** ** Byte strings *)
Lemma finish_bytes_run m s bs s' : finish_bytes m s = Ok bs s' -> exists n s1 p, m s = Ok (bs, n) s1 /\
  rest s1 = p ++ rest s' /\ blen p = n.
Proof.
  intros H. apply bind_ok in H as ([b n] & s1 & H1 & H). cbn [fst snd] in H. apply bind_ok in H as (x & s2 & H2 & H).
  apply ret_ok in H as [-> ->]. apply advance_run in H2 as (p & Q & L). exists n, s1, p. auto.
Qed.
Lemma byte_string_no_base64_sound s bs s' : byte_string_no_base64 s = Ok bs s' -> exists t, rest s = t ++ rest s' /\ bytes_lit t bs.
Proof.
  intros H. unfold byte_string_no_base64 in H. apply bind_ok in H as (b & s1 & H1 & H). apply consume_str_run in H1. destruct b.
  - apply finish_bytes_run in H as (n & s2 & p & H & Q & L). apply escaped_buf_run in H as (e & t & r & Q1 & Q2 & -> & QB).
    rewrite Q2 in Q. assert (Q3 : (t ++ [c_dq]) ++ r = p ++ rest s') by (rewrite <- Q; flat; reflexivity).
    apply blen_prefix in Q3 as [<- ->]; [|rewrite blen_app; cbn [blen]; rewrite L; reflexivity].
    exists (c_b :: c_dq :: (e ++ t) ++ [c_dq]). rewrite H1, Q1, Q2. split; [unfold s_bdq; flat; reflexivity|]. now constructor.
  - subst s1. apply bind_ok in H as (b & s1 & H1 & H). apply consume_str_run in H1. destruct b; [|now apply fail_ok in H].
    apply map_err_ok in H. apply finish_bytes_run in H as (n & s2 & p & H & Q & L).
    apply raw_buf_run in H as (k & t & r & Q1 & Q2 & -> & -> & RB).
    rewrite Q2 in Q. assert (Q3 : (t ++ c_dq :: repeat c_hash k) ++ r = p ++ rest s') by (rewrite <- Q; flat; reflexivity).
    apply blen_prefix in Q3 as [<- ->]; [|rewrite blen_app; cbn [blen]; rewrite L, blen_hashes; change (len_utf8 c_dq) with 1%nat; lia].
    exists (c_b :: c_r :: repeat c_hash k ++ c_dq :: t ++ c_dq :: repeat c_hash k).
    rewrite H1, Q1, Q2. split; [unfold s_br; flat; reflexivity|]. now constructor.
Qed.
Lemma base64_error_fails {A} t s (a : A) s' : base64_error t s = Ok a s' -> False.
Proof. unfold base64_error. destruct (try_decode_base64 t); discriminate. Qed.
Lemma byte_string_sound s bs s' : byte_string s = Ok bs s' -> exists t, rest s = t ++ rest s' /\ bytes_lit t bs.
Proof.
  intros H. unfold byte_string in H. apply bind_ok in H as (b & s1 & H1 & H). apply consume_char_run in H1. destruct b.
  - apply bind_ok in H as (v & s2 & _ & H). now apply base64_error_fails in H.
  - subst s1. apply bind_ok in H as (b & s1 & H1 & H). apply consume_char_run in H1. destruct b.
    + apply bind_ok in H as (v & s2 & _ & H). now apply base64_error_fails in H.
    + subst s1. now apply byte_string_no_base64_sound.
Qed.

(** ** Characters *)
Lemma parse_char_sound s c s' : parse_char s = Ok c s' -> exists t, rest s = t ++ rest s' /\ char_lit t c.
Proof.
  intros H. unfold parse_char in H. apply bind_ok in H as (x & s1 & H1 & H). apply expect_char_run in H1.
  apply bind_ok in H as (d & s2 & H2 & H). apply next_char_run in H2.
  apply bind_ok in H as (c' & s3 & H3 & H). apply bind_ok in H as (y & s4 & H4 & H). apply expect_char_run in H4.
  apply ret_ok in H as [-> ->]. destruct (d =? c_bs) eqn:D.
  - apply N.eqb_eq in D. subst d. apply bind_ok in H3 as (e & s5 & H5 & H3).
    apply parse_escape_run in H5 as (t & Q & _ & _ & HU & HS).
    destruct e as [b|c]; apply ret_ok in H3 as [-> ->].
    + destruct (HS b eq_refl) as [(k & -> & SE)|[Z _]]; [|discriminate]. exists [c_sq; c_bs; k; c_sq]. rewrite H1, H2, Q, H4.
      split; [reflexivity|]. now constructor.
    + destruct (HU eq_refl c eq_refl eq_refl) as [(a & da & b & db & -> & D1 & D2 & -> & LT)|(h & -> & L & HN & S)].
      * exists [c_sq; c_bs; 120; a; b; c_sq]. rewrite H1, H2, Q, H4. split; [reflexivity|]. now constructor.
      * exists (c_sq :: c_bs :: 117 :: c_lc :: h ++ [c_rc; c_sq]). rewrite H1, H2, Q, H4. split; [flat; reflexivity|]. now constructor.
  - apply ret_ok in H3 as [-> ->]. exists [c_sq; d; c_sq]. rewrite H1, H2, H4. split; [reflexivity|]. constructor.
    intros ->. discriminate.
Qed.

(** ** Integers *)
Lemma int_digits_run k base neg whole ds : forall i acc s z s', int_digits k base neg whole i ds acc s = Ok z s' ->
  (exists x, advance_bytes whole s = Ok x s') /\ (in_range k acc = true -> in_range k z = true) /\
  (forall d0 m0, int_number base d0 m0 -> acc = signed_value neg m0 ->
     exists m, int_number base (d0 ++ ds) m /\ z = signed_value neg m).
Proof.
  induction ds as [|c ds IH]; intros i acc s z s' H; cbn [int_digits] in H.
  - apply bind_ok in H as (x & s1 & H1 & H). apply ret_ok in H as [-> ->]. split; [eauto|]. split; [auto|].
    intros d0 m0 HN Q. exists m0. rewrite app_nil_r. auto.
  - destruct (c =? c_us) eqn:U.
    + apply N.eqb_eq in U. subst c. apply IH in H as (AD & IR & HH). split; [assumption|]. split; [assumption|].
      intros d0 m0 HN Q. destruct (HH (d0 ++ [c_us]) m0) as (m & HM & ->); [now constructor|assumption|].
      exists m. rewrite <- app_assoc in HM. auto.
    + destruct (in_range k (acc * base)); cbn [negb] in H.
      2:{ apply bind_ok in H as (x & s1 & H1 & H). now apply fail_ok in H. }
      apply bind_ok in H as (d & s1 & H1 & H). apply decode_hex_run in H1 as [HD ->].
      destruct (base <=? Z.of_N d)%Z eqn:LB.
      { apply bind_ok in H as (x & s1 & H1 & H). now apply fail_ok in H. }
      cbv zeta in H. destruct (in_range k (if neg then acc * base - Z.of_N d else acc * base + Z.of_N d)%Z) eqn:IR'; cbn [negb] in H.
      2:{ apply bind_ok in H as (x & s1 & H1 & H). now apply fail_ok in H. }
      apply IH in H as (AD & IR & HH). split; [assumption|]. split; [auto|].
      intros d0 m0 HN ->. destruct (HH (d0 ++ [c]) (m0 * base + Z.of_N d)%Z) as (m & HM & ->).
      * constructor; [assumption|assumption|lia].
      * destruct neg; cbn [signed_value]; lia.
      * exists m. rewrite <- app_assoc in HM. auto.
Qed.
Lemma int_digits_start k base neg whole c ds i s z s' : c <> c_us -> int_digits k base neg whole i (c :: ds) 0 s = Ok z s' ->
  (exists x, advance_bytes whole s = Ok x s') /\ in_range k z = true /\
  exists m, int_number base (c :: ds) m /\ z = signed_value neg m.
Proof.
  intros NU H. cbn [int_digits] in H. apply N.eqb_neq in NU. rewrite NU in H.
  destruct (in_range k (0 * base)); cbn [negb] in H.
  2:{ apply bind_ok in H as (x & s1 & H1 & H). now apply fail_ok in H. }
  apply bind_ok in H as (d & s1 & H1 & H). apply decode_hex_run in H1 as [HD ->].
  destruct (base <=? Z.of_N d)%Z eqn:LB.
  { apply bind_ok in H as (x & s1 & H1 & H). now apply fail_ok in H. }
  cbv zeta in H. destruct (in_range k (if neg then 0 * base - Z.of_N d else 0 * base + Z.of_N d)%Z) eqn:IR'; cbn [negb] in H.
  2:{ apply bind_ok in H as (x & s1 & H1 & H). now apply fail_ok in H. }
  apply int_digits_run in H as (AD & IR & HH). split; [assumption|]. split; [auto|].
  apply (HH [c] (Z.of_N d)); [constructor; [assumption|lia]|]. destruct neg; cbn [signed_value]; lia.
Qed.
Lemma parse_integer_run k neg base s z s' : parse_integer k neg base s = Ok z s' ->
  rest s = takewhile is_int_char (rest s) ++ rest s' /\ in_range k z = true /\
  exists m, int_number base (takewhile is_int_char (rest s)) m /\ z = signed_value neg m.
Proof.
  intros H. unfold parse_integer in H. apply bind_ok in H as (n & s1 & H1 & H). rewrite next_while_eq in H1. injection H1 as <- <-.
  destruct (Nat.eqb _ 0) eqn:NZ; [now apply fail_ok in H|].
  apply bind_ok in H as (u & s1 & H1 & H). unfold check_char in H1. injection H1 as Q <-.
  destruct u; [now apply fail_ok in H|].
  apply bind_ok in H as (r & s1 & H1 & H). apply src_ok in H1 as [-> ->].
  apply bind_ok in H as (ds & s1 & H1 & H). apply of_slice_ok in H1 as [B ->]. rewrite btake_takewhile in B. injection B as <-.
  destruct (takewhile is_int_char (rest s)) as [|c ds] eqn:TW; [discriminate|].
  assert (NU : c <> c_us).
  { destruct (rest s) as [|d r]; [discriminate|]. cbn [takewhile] in TW. destruct (is_int_char d); [|discriminate].
    injection TW as -> _. now apply N.eqb_neq in Q. }
  apply int_digits_start in H as ((x & AD) & IR & HM); [|assumption]. rewrite <- TW in AD. rewrite advance_while in AD. injection AD as _ <-.
  split; [|auto]. cbn [moved rest set_rest]. rewrite <- TW. apply take_drop_while.
Qed.

Lemma narrow_signed_range z : in_range large_sint z = true -> in_range (narrow_signed z) z = true.
Proof.
  unfold large_sint, narrow_signed. intros H. destruct (in_range I8 z) eqn:?; [assumption|]. destruct (in_range I16 z) eqn:?; [assumption|].
  destruct (in_range I32 z) eqn:?; [assumption|]. destruct int128; [|assumption]. destruct (in_range I64 z) eqn:?; assumption.
Qed.
Lemma narrow_unsigned_range z : in_range large_uint z = true -> in_range (narrow_unsigned z) z = true.
Proof.
  unfold large_uint, narrow_unsigned. intros H. destruct (in_range U8 z) eqn:?; [assumption|]. destruct (in_range U16 z) eqn:?; [assumption|].
  destruct (in_range U32 z) eqn:?; [assumption|]. destruct int128; [|assumption]. destruct (in_range U64 z) eqn:?; assumption.
Qed.
Lemma int_parse_run t neg base s k z s' : int_parse t neg base s = Ok (k, z) s' ->
  rest s = takewhile is_int_char (rest s) ++ rest s' /\ in_range k z = true /\ (forall k0, t = Some k0 -> k = k0) /\
  exists m, int_number base (takewhile is_int_char (rest s)) m /\ z = signed_value neg m.
Proof.
  intros H. destruct t as [k0|]; cbn [int_parse] in H.
  - apply bind_ok in H as (z0 & s1 & H1 & H). apply ret_ok in H as [Q ->]. injection Q as -> ->.
    apply parse_integer_run in H1 as (Q & IR & HM). split; [assumption|]. split; [assumption|]. split; [congruence|assumption].
  - destruct neg; apply bind_ok in H as (z0 & s1 & H1 & H); apply ret_ok in H as [Q ->]; injection Q as -> ->;
      apply parse_integer_run in H1 as (Q & IR & HM); (split; [assumption|]);
      (split; [first [now apply narrow_signed_range|now apply narrow_unsigned_range]|]); (split; [discriminate|assumption]).
Qed.
Lemma consume_suffix_run l s o s' : consume_int_suffix l s = Ok o s' ->
  match o with Some k => exists r, rest s = ik_suffix k ++ r /\ starts_not xid_continue r | None => s' = s end.
Proof.
  revert s. induction l as [|k l IH]; intros s H; cbn [consume_int_suffix] in H; [now apply ret_ok in H as [-> ->]|].
  apply bind_ok in H as (b & s1 & H1 & H). rewrite consume_ident_eq in H1.
  destruct (ident_at (ik_suffix k) (rest s)) eqn:IA.
  - assert (Q : b = true /\ rest s = ik_suffix k ++ rest s1 /\ starts_not xid_continue (rest s1)).
    { unfold ident_at in IA. destruct (strip_prefix (ik_suffix k) (rest s)) as [r|] eqn:SP; [|discriminate].
      injection H1 as <- <-. split; [reflexivity|]. cbn [moved rest set_rest]. apply strip_prefix_some in SP. split; [assumption|].
      destruct r as [|c r]; [exact Logic.I|]. cbn in IA |- *. now destruct (xid_continue c). }
    destruct Q as (-> & Q & D). apply ret_ok in H as [-> ->]. eauto.
  - injection H1 as <- <-. apply IH in H. exact H.
Qed.

Lemma reads_run {A} (m : M A) t D a T s r : reads m t D a -> inv T s -> rest s = t ++ r -> D r ->
  exists s', m s = Ok a s' /\ rest s' = r.
Proof.
  intros H I Q HD. specialize (H T s r I Q HD). Transparent wp. unfold wp in H. Opaque wp.
  destruct (m s) as [a' s'|e s'| |]; try contradiction. destruct H as (-> & R & _). eauto.
Qed.
Lemma try_parsed_run t p s q s' : try_from_parsed_integer t p s = Ok q s' -> q = p /\ s' = s /\ forall k, t = Some k -> fst p = k.
Proof.
  unfold try_from_parsed_integer. destruct t as [k|].
  - destruct (ik_eqb k (fst p)) eqn:K; [|intros H; now apply fail_ok in H]. intros H. apply ret_ok in H as [-> ->].
    split; [reflexivity|]. split; [reflexivity|]. intros k' Q. injection Q as <-. destruct p as [k0 z]. cbn in *.
    destruct k, k0; (reflexivity || discriminate K).
  - intros H. apply ret_ok in H as [-> ->]. split; [reflexivity|]. split; [reflexivity|discriminate].
Qed.
Lemma slice_before_run a b s x s' : slice_before a b s = Ok x s' -> s' = s.
Proof. unfold slice_before. destruct (Nat.leb _ _); [|discriminate]. intros H. now apply of_slice_ok in H as [_ ->]. Qed.

Section Xid.
Context {X : XidOk E}.
Lemma integer_body_run T t neg base backup s k z s' : inv T s -> integer_body t neg base backup s = Ok (k, z) s' ->
  in_range k z = true /\ (forall k0, t = Some k0 -> k = k0) /\
  exists ds m u, rest s = ds ++ u ++ rest s' /\ int_number base ds m /\ z = signed_value neg m /\ (u = [] \/ u = ik_suffix k).
Proof.
  intros I H. unfold integer_body in H. apply bind_ok in H as (n & s1 & H1 & H). rewrite next_while_eq in H1. injection H1 as <- <-.
  apply bind_ok in H as (r & s1 & H1 & H). apply src_ok in H1 as [-> ->].
  apply bind_ok in H as (t' & s1 & H1 & H). apply of_slice_ok in H1 as [B ->]. cbv zeta in H.
  assert (GO : forall s0, rest s0 = rest s -> int_parse t neg base s0 = Ok (k, z) s' ->
    in_range k z = true /\ (forall k0, t = Some k0 -> k = k0) /\
    exists ds m u, rest s = ds ++ u ++ rest s' /\ int_number base ds m /\ z = signed_value neg m /\ (u = [] \/ u = ik_suffix k)).
  { intros s0 Q0 H0. apply int_parse_run in H0 as (Q & IR & KT & m & HN & QZ). rewrite Q0 in *. split; [assumption|]. split; [assumption|].
    exists (takewhile is_int_char (rest s)), m, []. auto. }
  destruct t' as [|c t']; [now apply (GO s)|]. destruct ((c =? 105) || (c =? 117)); [|now apply (GO s)].
  apply bind_ok in H as (cur & s1 & H1 & H). unfold get_cursor_m in H1. injection H1 as <- <-.
  apply bind_ok in H as (x & s1 & H1 & H). rewrite advance_while in H1. injection H1 as _ <-.
  apply bind_ok in H as (o & s2 & H2 & H). assert (A1 : adv T s (moved (dropwhile is_int_char (rest s)) s)) by (apply adv_moved; [assumption|apply suf_dropwhile]).
  assert (A2 := total_ok _ _ _ _ _ (total_int_suffix _) (adv_inv _ _ _ A1) H2).
  apply consume_suffix_run in H2. destruct o as [k0|].
  2:{ apply bind_ok in H as (y & s3 & H3 & H). apply modify_ok in H3. subst s3. subst s2. eapply GO; [|exact H]. reflexivity. }
  destruct H2 as (r & Q2 & D2). cbn [moved rest set_rest] in Q2.
  apply bind_ok in H as (after & s3 & H3 & H). apply src_ok in H3 as [-> ->].
  apply bind_ok in H as (y & s3 & H3 & H). apply modify_ok in H3.
  assert (I3 : inv T s3 /\ rest s3 = rest s). { subst s3. split; [|reflexivity]. apply (adv_rewind T s s2 I (adv_trans _ _ _ _ A1 A2)). }
  destruct I3 as [I3 Q3].
  unfold try in H. destruct (parse_integer k0 neg base s3) as [z0 s4|e0 s4| |] eqn:PI; try discriminate.
  2:{ destruct e0; repeat (apply bind_ok in H as (?x & ?s & ?H & H)); now apply fail_ok in H. }
  assert (A4 := total_ok _ _ _ _ _ (total_parse_integer k0 neg base) I3 PI).
  apply parse_integer_run in PI as (Q & IR & m & HN & ->). rewrite Q3 in *.
  assert (Q4 : rest s4 = ik_suffix k0 ++ r). { rewrite <- Q2. rewrite (take_drop_while is_int_char (rest s)) in Q at 1. now apply app_inv_head in Q. }
  apply bind_ok in H as (i & s5 & H5 & H).
  destruct (reads_run _ _ _ _ T s4 r (reads_skip_suffix k0) (adv_inv _ _ _ A4) Q4 D2) as (s5' & H5' & Q5).
  rewrite H5' in H5. injection H5 as <- <-.
  apply bind_ok in H as (y' & s6 & H6 & H). apply bind_ok in H6 as (y2 & s7 & H7 & H6). apply slice_before_run in H7. subst s7.
  apply ret_ok in H6 as [_ ->]. apply try_parsed_run in H as (QK & -> & KT). injection QK as -> ->.
  split; [assumption|]. split; [intros k1 Q1; apply (KT k1 Q1)|].
  exists (takewhile is_int_char (rest s)), m, (ik_suffix k0). rewrite Q5. split; [|auto]. rewrite Q at 1. now rewrite Q4.
Qed.

Lemma byte_literal_run t backup s k z s' : byte_literal t backup s = Ok (k, z) s' ->
  in_range k z = true /\ (forall k0, t = Some k0 -> k = k0) /\
  exists u b, c_b :: c_sq :: rest s = u ++ rest s' /\ k = U8 /\ z = Z.of_N b /\ byte_lit u b.
Proof.
  intros H. unfold byte_literal in H. apply bind_ok in H as (c & s1 & H1 & H). apply next_char_run in H1.
  apply bind_ok in H as (b & s2 & H2 & H). apply bind_ok in H as (q & s3 & H3 & H). apply consume_char_run in H3.
  destruct q; [|now apply fail_ok in H]. apply bind_ok in H as (r & s4 & H4 & H). apply src_ok in H4 as [-> ->].
  apply bind_ok in H as (x & s4 & H4 & H). apply slice_before_run in H4. subst s4.
  apply try_parsed_run in H as (QK & -> & KT). injection QK as -> ->.
  assert (BL : exists u, c_b :: c_sq :: rest s = u ++ rest s3 /\ byte_lit u b /\ b < 256).
  { destruct (c =? c_bs) eqn:CB.
    - apply N.eqb_eq in CB. subst c. apply bind_ok in H2 as (e & s5 & H5 & H2).
      apply parse_escape_run in H5 as (u & Q & _ & _ & _ & HS). destruct e as [b0|]; [|now apply fail_ok in H2].
      apply ret_ok in H2 as [-> ->]. destruct (HS b0 eq_refl) as [(c & -> & SE)|(_ & a & da & b' & db & -> & D1 & D2 & ->)].
      + exists [c_b; c_sq; c_bs; c; c_sq]. rewrite H1, Q, H3. split; [reflexivity|]. split; [now constructor|]. destruct SE; reflexivity.
      + exists [c_b; c_sq; c_bs; 120; a; b'; c_sq]. rewrite H1, Q, H3. split; [reflexivity|]. split; [now constructor|].
        apply hex_digit_bound in D1 as (D1 & _). apply hex_digit_bound in D2 as (D2 & _). lia.
    - destruct (c <? 128) eqn:LT; [|now apply fail_ok in H2]. apply ret_ok in H2 as [-> ->].
      exists [c_b; c_sq; c; c_sq]. rewrite H1, H3. split; [reflexivity|]. split; [|lia]. constructor; [lia|].
      intros ->. discriminate. }
  destruct BL as (u & Q & BL & LT). split; [unfold in_range; change (ik_min U8) with 0%Z; change (ik_max U8) with 255%Z; lia|].
  split; [intros k0 QK; apply (KT k0 QK)|]. exists u, b. auto.
Qed.

Lemma integer_sound T t s k z s' : inv T s -> integer t s = Ok (k, z) s' ->
  in_range k z = true /\ (forall k0, t = Some k0 -> k = k0) /\ exists u, rest s = u ++ rest s' /\ int_text k z u.
Proof.
  intros I H. unfold integer in H. apply bind_ok in H as (backup & s1 & H1 & H). apply src_ok in H1 as [-> ->].
  apply bind_ok in H as (c & s1 & H1 & H). unfold peek_char_or_eof in H1. destruct (rest s) as [|d r] eqn:QR; [discriminate|].
  injection H1 as <- <-. cbv zeta in H.
  assert (SG : forall sg neg s0, sign sg neg -> inv T s0 -> d :: r = sg ++ rest s0 ->
    (b <- consume_str s_0b ;;
     if b then integer_body t neg 2 (d :: r) else
     o <- consume_str s_0o ;;
     if o then integer_body t neg 8 (d :: r) else
     x <- consume_str s_0x ;;
     if x then integer_body t neg 16 (d :: r) else
     integer_body t neg 10 (d :: r)) s0 = Ok (k, z) s' ->
    in_range k z = true /\ (forall k0, t = Some k0 -> k = k0) /\ exists u, d :: r = u ++ rest s' /\ int_text k z u).
  { intros sg neg s0 HS I0 Q0 H0.
    assert (FIN : forall p base s1, base_prefix p base -> inv T s1 -> rest s0 = p ++ rest s1 ->
      integer_body t neg base (d :: r) s1 = Ok (k, z) s' ->
      in_range k z = true /\ (forall k0, t = Some k0 -> k = k0) /\ exists u, d :: r = u ++ rest s' /\ int_text k z u).
    { intros p base s1 HP I1 Q1 H1. apply integer_body_run with (T := T) in H1 as (IR & KT & ds & m & u & Q & HN & -> & HU); [|assumption].
      split; [assumption|]. split; [assumption|]. exists ((sg ++ p ++ ds) ++ u). split; [rewrite Q0, Q1, Q; flat; reflexivity|].
      assert (IL : int_lit (sg ++ p ++ ds) (signed_value neg m)) by (eapply il; eassumption).
      destruct HU as [->| ->]; [rewrite app_nil_r; now apply it_plain|now apply it_suffix]. }
    apply bind_ok in H0 as (b1 & s1 & H1 & H0). apply consume_str_ok with (T := T) in H1 as (A1 & Q1); [|assumption].
    destruct b1; [apply (FIN s_0b 2%Z s1); auto; [constructor|apply A1]|]. subst s1.
    apply bind_ok in H0 as (b1 & s1 & H1 & H0). apply consume_str_ok with (T := T) in H1 as (A2 & Q1); [|assumption].
    destruct b1; [apply (FIN s_0o 8%Z s1); auto; [constructor|apply A2]|]. subst s1.
    apply bind_ok in H0 as (b1 & s1 & H1 & H0). apply consume_str_ok with (T := T) in H1 as (A3 & Q1); [|assumption].
    destruct b1; [apply (FIN s_0x 16%Z s1); auto; [constructor|apply A3]|]. subst s1.
    apply (FIN [] 10%Z s0); auto. constructor. }
  assert (SK : forall s0 x, skip_next_char s = Ok x s0 -> inv T s0 /\ rest s0 = r).
  { intros s0 x HS. assert (A0 := total_ok _ _ _ _ _ total_skip_next_char I HS). split; [apply A0|].
    unfold skip_next_char, try, next_char in HS. rewrite QR in HS. now injection HS as _ <-. }
  destruct (d =? c_plus) eqn:DP.
  { apply N.eqb_eq in DP. subst d. apply bind_ok in H as (x & s0 & H0 & H). apply SK in H0 as [I0 Q0].
    apply (SG [c_plus] false s0); auto; [constructor|now rewrite Q0]. }
  destruct (d =? c_minus) eqn:DM.
  { apply N.eqb_eq in DM. subst d. apply bind_ok in H as (x & s0 & H0 & H). apply SK in H0 as [I0 Q0].
    apply (SG [c_minus] true s0); auto; [constructor|now rewrite Q0]. }
  destruct (d =? c_b) eqn:DB.
  - apply bind_ok in H as (b & s0 & H0 & H). apply consume_str_run in H0. destruct b.
    + apply byte_literal_run in H as (IR & KT & u & b & Q & -> & -> & BL). split; [assumption|]. split; [assumption|].
      exists u. rewrite QR in H0. rewrite H0. change (s_bsq ++ rest s0) with (c_b :: c_sq :: rest s0). split; [exact Q|].
      eapply it_byte; eauto.
    + subst s0. apply (SG [] false s); auto. constructor.
  - apply (SG [] false s); auto. constructor.
Qed.

(** ** Floats *)
Lemma float_parse_run t v s k b s' : float_parse t v s = Ok (k, b) s' -> s' = s /\ float_of t k b v.
Proof.
  unfold float_parse, float_of. destruct t as [k0|].
  - destruct (f_read k0 v) as [b0|] eqn:Q; [|intros H; now apply fail_ok in H]. intros H. apply ret_ok in H as [H ->].
    injection H as -> ->. auto.
  - destruct (f_read F64 v) as [b0|] eqn:Q; [|intros H; now apply fail_ok in H].
    destruct (b0 =? f_widen (f_narrow b0)) eqn:W; intros H; apply ret_ok in H as [H ->]; injection H as -> ->;
      (split; [reflexivity|]); exists b0; (split; [reflexivity|]).
    + left. apply N.eqb_eq in W. auto.
    + right. apply N.eqb_neq in W. auto.
Qed.
Lemma try_float_run t p s q s' : try_from_parsed_float t p s = Ok q s' -> q = p /\ s' = s /\ asked t (fst p).
Proof.
  unfold try_from_parsed_float, asked. destruct t as [k|].
  - destruct (fk_eqb k (fst p)) eqn:K; [|intros H; now apply fail_ok in H]. intros H. apply ret_ok in H as [-> ->].
    split; [reflexivity|]. split; [reflexivity|]. intros k' Q. injection Q as <-. destruct p as [k0 z]. cbn in *.
    destruct k, k0; (reflexivity || discriminate K).
  - intros H. apply ret_ok in H as [-> ->]. split; [reflexivity|]. split; [reflexivity|discriminate].
Qed.
Lemma float_lits_run T t l s o s' : inv T s ->
  (forall w v32 v64, In (w, v32, v64) l -> exists f, float_word w f /\ v32 = f F32 /\ v64 = f F64) ->
  float_lits t l s = Ok o s' ->
  match o with
  | Some (k, b) => exists u, rest s = u ++ rest s' /\ float_text t k b u
  | None => s' = s
  end.
Proof.
  intros I. revert s I. induction l as [|[[w v32] v64] l IH]; intros s I HL H; cbn [float_lits] in H.
  { apply ret_ok in H as [-> ->]. reflexivity. }
  assert (IHs := fun I' H' => IH s I' (fun a b c HI => HL a b c (or_intror HI)) H'). clear IH. specialize (IHs I).
  destruct (HL w v32 v64 (or_introl eq_refl)) as (f & HW & -> & ->). clear HL.
  apply bind_ok in H as (b & s1 & H1 & H). apply consume_ident_ok with (T := T) in H1 as (A1 & Q1); [|exact I]. destruct b.
  { apply bind_ok in H as ([k b] & s2 & H2 & H). apply float_parse_run in H2 as [-> FO]. apply ret_ok in H as [-> ->].
    exists w. split; [exact Q1|]. eapply fx_word; eassumption. }
  subst s1. apply bind_ok in H as (r & s1 & H1 & H). apply src_ok in H1 as [-> ->].
  destruct (strip_prefix w (rest s)) as [sfx|] eqn:SP; [|now apply IHs]. apply strip_prefix_some in SP. cbv zeta in H.
  assert (GO : forall k next, (next s = Ok o s' -> match o with Some (k, b) => exists u, rest s = u ++ rest s' /\ float_text t k b u | None => s' = s end) ->
    match strip_prefix (fk_suffix k) sfx with
    | Some post => if next_is_xid_continue post then next else
                   of_slice (btake (blen w + 3) (rest s)) ;;; advance_bytes (blen w + 3) ;;;
                   x <- try_from_parsed_float t (k, f k) ;; ret (Some x)
    | None => next
    end s = Ok o s' -> match o with Some (k, b) => exists u, rest s = u ++ rest s' /\ float_text t k b u | None => s' = s end).
  { intros k next HN Q. destruct (strip_prefix (fk_suffix k) sfx) as [post|] eqn:SF; [|exact (HN Q)].
    destruct (next_is_xid_continue post); [exact (HN Q)|]. apply strip_prefix_some in SF. clear HN.
    apply bind_ok in Q as (x & s1 & H1 & Q). apply of_slice_ok in H1 as [_ ->].
    apply bind_ok in Q as (x' & s1 & H1 & Q).
    replace (blen w + 3)%nat with (blen (w ++ fk_suffix k)) in H1 by (rewrite blen_app; destruct k; reflexivity).
    apply advance_exact with (r := post) in H1; [|rewrite SP, SF; flat; reflexivity].
    apply bind_ok in Q as ([k' b] & s2 & H2 & Q). apply try_float_run in H2 as (QP & -> & AK). injection QP as -> ->.
    apply ret_ok in Q as [-> ->]. exists (w ++ fk_suffix k). split; [rewrite H1, SP, SF; flat; reflexivity|].
    eapply fx_word_suffix; eauto. }
  apply (GO F32) in H; [exact H|]. intros H2. apply (GO F64) in H2; [exact H2|]. exact IHs.
Qed.

Lemma float_chars_run s : forall i allow f, float_chars i allow s = inl f ->
  f = filter (fun c => negb (c =? c_us)) s /\
  forall a b, s = a ++ c_us :: b -> (exists a1 c a2, a = a1 ++ c :: a2 /\ float_digit c /\ ~ In c_dot a2) \/ (allow = true /\ ~ In c_dot a).
Proof.
  induction s as [|c s IH]; intros i allow f H; cbn [float_chars] in H.
  { injection H as <-. split; [reflexivity|]. intros [|] b Q; discriminate. }
  cbn [filter]. destruct (c =? c_us) eqn:CU; cbn [negb].
  - apply N.eqb_eq in CU. subst c. destruct allow; [|discriminate]. apply IH in H as [-> H]. split; [reflexivity|].
    intros [|c a] b Q; [right; now split|]. apply cons_inj in Q as [<- Q]. destruct (H a b Q) as [(a1 & c & a2 & -> & D & N0)|[_ N0]].
    + left. exists (c_us :: a1), c, a2. auto.
    + right. split; [reflexivity|]. intros [HI|HI]; [discriminate|auto].
  - destruct (float_chars _ _ s) as [f'|] eqn:FC; [|discriminate]. injection H as <-. apply IH in FC as [-> H]. split; [reflexivity|].
    intros [|c' a] b Q; [apply cons_inj in Q as [-> _]; discriminate|]. apply cons_inj in Q as [<- Q].
    destruct (H a b Q) as [(a1 & c' & a2 & -> & D & N0)|[HA N0]]; [left; exists (c :: a1), c', a2; auto|].
    destruct (is_digit c || (c =? 101) || (c =? 69)) eqn:FD.
    + left. exists [], c, a. split; [reflexivity|]. split; [|assumption]. unfold float_digit.
      apply orb_prop in FD as [FD|FD]; [apply orb_prop in FD as [FD|FD]|]; [auto|apply N.eqb_eq in FD; auto|apply N.eqb_eq in FD; auto].
    + destruct (c =? c_dot) eqn:CD; [discriminate|]. right. split; [assumption|]. intros [HI|HI]; [subst c; discriminate|auto].
Qed.

Lemma find_str_present p a r : find_str p (a ++ p ++ r) <> None.
Proof.
  induction a as [|c a IH]; cbn [app].
  - destruct (p ++ r) eqn:Q; cbn [find_str].
    + apply app_eq_nil in Q as [-> ->]. discriminate.
    + rewrite <- Q, starts_with_app. discriminate.
  - cbn [find_str]. destruct (starts_with _ _); [discriminate|].
    destruct (find_str p (a ++ p ++ r)) as [[]|]; [discriminate|contradiction].
Qed.
Lemma dotdot_first s : exists a b, s = a ++ b /\ dotdot_len s = blen a /\ forall x y, a <> x ++ s_dotdot ++ y.
Proof.
  unfold dotdot_len. destruct (find_str s_dotdot s) as [[a b]|] eqn:FS.
  - destruct (find_str_some _ _ _ _ FS) as [-> _]. exists a, b. split; [reflexivity|]. split; [reflexivity|].
    intros x y ->. assert (L := find_str_first _ _ _ _ FS x (y ++ b)). rewrite <- !app_assoc in L. specialize (L eq_refl).
    rewrite !app_length in L. cbn [length s_dotdot] in L. lia.
  - exists s, []. split; [now rewrite app_nil_r|]. split; [reflexivity|]. intros x y ->. now apply (find_str_present s_dotdot x y).
Qed.

Lemma float_sound T t s k b s' : inv T s -> float t s = Ok (k, b) s' ->
  exists u, rest s = u ++ rest s' /\ float_text t k b u.
Proof.
  intros I H. unfold float in H. apply bind_ok in H as (o & s1 & H1 & H).
  apply float_lits_run with (T := T) in H1; [|exact I|].
  2:{ intros w v32 v64 HI. unfold float_literals in HI. cbn [In] in HI.
      repeat (destruct HI as [HI|HI]; [injection HI as <- <- <-; eexists; split; [constructor|split; reflexivity]|]). contradiction. }
  destruct o as [[k' b']|]; [apply ret_ok in H as [Q ->]; injection Q as -> ->; exact H1|]. subst s1.
  apply bind_ok in H as (raw & s1 & H1 & H). rewrite next_while_eq in H1. injection H1 as <- <-.
  apply bind_ok in H as (r & s1 & H1 & H). apply src_ok in H1 as [-> ->].
  apply bind_ok in H as (x & s1 & H1 & H). apply of_slice_ok in H1 as [B ->]. rewrite btake_takewhile in B. injection B as <-. cbv zeta in H.
  destruct (dotdot_first (takewhile is_float_char (rest s))) as (a & a' & QA & QL & ND). rewrite QL in H.
  assert (FA : forallb is_float_char a = true).
  { assert (F := takewhile_forallb is_float_char (rest s)). rewrite QA, forallb_app in F. now apply andb_prop in F as [F _]. }
  assert (QR : exists r, rest s = a ++ r).
  { exists (a' ++ dropwhile is_float_char (rest s)). rewrite app_assoc, <- QA. apply take_drop_while. }
  destruct QR as [r QR].
  destruct (Nat.eqb (blen a) 0) eqn:NZ; [now apply fail_ok in H|].
  assert (NA : a <> []) by (intros ->; discriminate).
  apply bind_ok in H as (c & s1 & H1 & H). apply check_char_ok in H1 as [-> _]. destruct c; [now apply fail_ok in H|].
  apply bind_ok in H as (x & s1 & H1 & H). apply of_slice_ok in H1 as [B ->]. rewrite QR, btake_app in B. injection B as <-.
  destruct (float_chars 0 false a) as [f|i] eqn:FC.
  2:{ apply bind_ok in H as (y & s1 & H1 & H). now apply fail_ok in H. }
  apply float_chars_run in FC as [QF FU].
  assert (SP : spelled a f).
  { split; [assumption|]. split; [assumption|]. split; [assumption|]. split; [assumption|].
    intros u v Q. destruct (FU u v Q) as [HU|[HU _]]; [assumption|discriminate]. }
  apply bind_ok in H as (t' & s1 & H1 & H). apply of_slice_ok in H1 as [B ->].
  assert (PL : forall s0, rest s0 = rest s -> (v <- float_parse t f ;; advance_bytes (blen a) ;;; ret v) s0 = Ok (k, b) s' ->
    exists u, rest s = u ++ rest s' /\ float_text t k b u).
  { intros s0 Q0 H0. apply bind_ok in H0 as ([k' b'] & s1 & H1 & H0). apply float_parse_run in H1 as [-> FO].
    apply bind_ok in H0 as (y & s1 & H1 & H0). apply advance_exact with (r := r) in H1; [|now rewrite Q0].
    apply ret_ok in H0 as [Q ->]. injection Q as -> ->. exists a. split; [now rewrite H1|]. eapply fx_num; eassumption. }
  destruct t' as [|c t']; [now apply (PL s)|]. destruct (c =? 102) eqn:CF; [|now apply (PL s)].
  apply bind_ok in H as (cur & s1 & H1 & H). unfold get_cursor_m in H1. injection H1 as <- <-.
  apply bind_ok in H as (y & s1 & H1 & H). rewrite (advance_ok s (blen a) a r QR eq_refl) in H1. injection H1 as <- <-.
  assert (A1 : adv T s (moved r s)) by (apply adv_moved; [assumption|now exists a]).
  assert (H1 : rest (moved r s) = r) by reflexivity. set (s1 := moved r s) in *.
  assert (FIN : forall k0 s2, rest s1 = fk_suffix k0 ++ rest s2 ->
    match f_read k0 f with
    | None => set_cursor_m (get_cursor s) ;;; fail EExpectedFloat
    | Some v => after <- src ;; slice_before (rest s) after ;;; try_from_parsed_float t (k0, v)
    end s2 = Ok (k, b) s' -> exists u, rest s = u ++ rest s' /\ float_text t k b u).
  { intros k0 s2 Q2 H2. destruct (f_read k0 f) as [v|] eqn:FR.
    2:{ apply bind_ok in H2 as (z & s3 & H3 & H2). now apply fail_ok in H2. }
    apply bind_ok in H2 as (z & s3 & H3 & H2). apply src_ok in H3 as [-> ->].
    apply bind_ok in H2 as (z & s3 & H3 & H2). apply slice_before_run in H3. subst s3.
    apply try_float_run in H2 as (Q & -> & AK). injection Q as -> ->. exists (a ++ fk_suffix k0).
    split; [rewrite QR, <- H1, Q2; flat; reflexivity|]. eapply fx_suffix; eauto. }
  apply bind_ok in H as (b32 & s2 & H2 & H). apply consume_ident_ok with (T := T) in H2 as (A2 & Q2); [|apply A1].
  destruct b32; [now apply (FIN F32 s2)|]. subst s2.
  apply bind_ok in H as (b64 & s2 & H2 & H). apply consume_ident_ok with (T := T) in H2 as (A3 & Q2); [|apply A1].
  destruct b64; [now apply (FIN F64 s2)|]. subst s2.
  apply bind_ok in H as (z & s3 & H3 & H). apply modify_ok in H3. subst s3. eapply PL; [|exact H]. reflexivity.
Qed.

Lemma next_while_from_same n p s x s' : next_chars_while_from_len n p s = Ok x s' -> s' = s.
Proof.
  unfold next_chars_while_from_len. intros H. apply bind_ok in H as (r & s1 & H1 & H). apply src_ok in H1 as [-> ->].
  apply bind_ok in H as (r & s1 & H1 & H). apply of_slice_ok in H1 as [_ ->]. now apply ret_ok in H as [_ ->].
Qed.
Lemma next_bytes_is_float_same s b s' : next_bytes_is_float s = Ok b s' -> s' = s.
Proof.
  unfold next_bytes_is_float. intros H. apply bind_ok in H as (c & s1 & H1 & H). unfold peek_char in H1. injection H1 as <- <-.
  destruct (rest s) as [|c r]; [now apply ret_ok in H as [_ ->]|]. cbv zeta in H.
  apply bind_ok in H as (raw & s1 & H1 & H). apply next_while_from_same in H1. subst s1.
  apply bind_ok in H as (r' & s1 & H1 & H). apply src_ok in H1 as [-> ->].
  apply bind_ok in H as (t & s1 & H1 & H). apply of_slice_ok in H1 as [_ ->].
  apply bind_ok in H as (t1 & s1 & H1 & H). apply of_slice_ok in H1 as [_ ->].
  apply bind_ok in H as (raw' & s1 & H1 & H). apply next_while_from_same in H1. subst s1. now apply ret_ok in H as [_ ->].
Qed.
Lemma total_err {A} (m : M A) T s er s' : total m -> inv T s -> m s = Err er s' -> adv T s s'.
Proof. intros H I Q. specialize (H T s I). Transparent wp. unfold wp in H. Opaque wp. now rewrite Q in H. Qed.
Lemma try_ok {A B} (m : M A) (f : A -> M B) g s b s' : try m f g s = Ok b s' ->
  (exists a s1, m s = Ok a s1 /\ f a s1 = Ok b s') \/ (exists er s1, m s = Err er s1 /\ g er s1 = Ok b s').
Proof. unfold try. destruct (m s) as [a s1|er s1| |] eqn:Q; intros H; try discriminate; [left|right]; eauto. Qed.

Lemma any_number_sound T s n s' : inv T s -> any_number s = Ok n s' ->
  exists u, rest s = u ++ rest s' /\ num_lit n u.
Proof.
  intros I H. unfold any_number in H.
  apply bind_ok in H as (b & s1 & H1 & H). apply consume_ident_ok with (T := T) in H1 as (A1 & Q1); [|exact I].
  destruct b; [apply ret_ok in H as [-> ->]; exists s_inf; split; [exact Q1|]; apply nl_word; auto|]. subst s1.
  apply bind_ok in H as (b & s1 & H1 & H). apply consume_ident_ok with (T := T) in H1 as (A2 & Q1); [|exact I].
  destruct b; [apply ret_ok in H as [-> ->]; exists s_inff32; split; [exact Q1|]; apply (nl_word_suffix F32 s_inf f_inf); auto|]. subst s1.
  apply bind_ok in H as (b & s1 & H1 & H). apply consume_ident_ok with (T := T) in H1 as (A3 & Q1); [|exact I].
  destruct b; [apply ret_ok in H as [-> ->]; exists s_inff64; split; [exact Q1|]; apply (nl_word_suffix F64 s_inf f_inf); auto|]. subst s1.
  apply bind_ok in H as (b & s1 & H1 & H). apply consume_ident_ok with (T := T) in H1 as (A4 & Q1); [|exact I].
  destruct b; [apply ret_ok in H as [-> ->]; exists s_NaN; split; [exact Q1|]; apply nl_word; auto|]. subst s1.
  apply bind_ok in H as (b & s1 & H1 & H). apply consume_ident_ok with (T := T) in H1 as (A5 & Q1); [|exact I].
  destruct b; [apply ret_ok in H as [-> ->]; exists s_NaNf32; split; [exact Q1|]; apply (nl_word_suffix F32 s_NaN f_nan); auto|]. subst s1.
  apply bind_ok in H as (b & s1 & H1 & H). apply consume_ident_ok with (T := T) in H1 as (A6 & Q1); [|exact I].
  destruct b; [apply ret_ok in H as [-> ->]; exists s_NaNf64; split; [exact Q1|]; apply (nl_word_suffix F64 s_NaN f_nan); auto|]. subst s1.
  apply bind_ok in H as (isf & s1 & H1 & H).
  assert (s1 = s) by (eapply next_bytes_is_float_same; eassumption). subst s1.
  assert (FL : forall s0 p, inv T s0 -> rest s0 = rest s -> float None s0 = Ok p s' -> n = num_of_float p ->
    exists u, rest s = u ++ rest s' /\ num_lit n u).
  { intros s0 [k b] I0 Q0 H0 ->. apply float_sound with (T := T) in H0 as (u & Q & FT); [|assumption]. exists u.
    split; [now rewrite <- Q0|]. now apply nl_float. }
  destruct isf.
  { apply bind_ok in H as (p & s1 & H2 & H). apply ret_ok in H as [-> ->]. now apply (FL s p). }
  apply bind_ok in H as (cur & s1 & H2 & H). unfold get_cursor_m in H2. injection H2 as <- <-.
  apply try_ok in H as [([k z] & s1 & H2 & H)|(er & s1 & H2 & H)].
  { apply ret_ok in H as [-> ->]. apply integer_sound with (T := T) in H2 as (IR & _ & u & Q & IT); [|assumption].
    exists u. split; [assumption|]. now apply nl_int. }
  assert (A7 : adv T s s1) by (eapply total_err; [apply total_integer|exact I|exact H2]).
  apply bind_ok in H as (icur & s2 & H3 & H). unfold get_cursor_m in H3. injection H3 as <- <-.
  apply bind_ok in H as (y & s2 & H3 & H). apply modify_ok in H3. cbv zeta in H.
  assert (I2 : inv T s2) by (subst s2; apply (adv_rewind T s s1 I A7)).
  assert (Q2 : rest s2 = rest s) by (subst s2; reflexivity).
  apply try_ok in H as [(p & s3 & H4 & H)|(er' & s3 & H4 & H)].
  - apply bind_ok in H as (rr & s4 & H5 & H). apply src_ok in H5 as [-> ->].
    destruct (Nat.leb _ _).
    + apply ret_ok in H as [-> ->]. now apply (FL s2 p).
    + apply bind_ok in H as (z & s4 & H5 & H). now apply fail_ok in H.
  - apply bind_ok in H as (z & s4 & H5 & H). now apply fail_ok in H.
Qed.
End Xid.
End S.
