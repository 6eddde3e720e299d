(** Positive lexical results: texts of the literal grammar [Lit] are read as
    what they denote. *)
From Coq Require Import String Ascii NArith ZArith Lia Bool List.
From Coq Require Import ZifyBool ZifyNat ZifyN.
From Verif Require Import Base Facts Parse Wp EnvOk LexSafe LexWs Lit.
Import ListNotations.
Open Scope N_scope.
Open Scope list_scope.
Open Scope m_scope.

(** [m] reads exactly [txt], whatever follows in [D], and returns [a] *)
Definition reads {A} (m : M A) (txt : str) (D : str -> Prop) (a : A) : Prop :=
  forall T s r, inv T s -> rest s = txt ++ r -> D r ->
  wp m (fun a' s' => a' = a /\ rest s' = r /\ adv T s s') (fun _ _ => False) s.
Definition anything (r : str) : Prop := True.

Lemma wp_reads {A} (m : M A) txt (D : str -> Prop) a T s r (Q : A -> st -> Prop) (R : err -> st -> Prop) :
  reads m txt D a -> inv T s -> rest s = txt ++ r -> D r ->
  (forall s', rest s' = r -> adv T s s' -> Q a s') -> wp m Q R s.
Proof.
  intros H I E d K. eapply wp_conseq; [exact (H T s r I E d)| |].
  - intros a' s' (-> & E' & A'). auto.
  - contradiction.
Qed.
Lemma reads_bind {A B} (m : M A) (k : A -> M B) t1 t2 (D1 D2 : str -> Prop) a b :
  reads m t1 D1 a -> reads (k a) t2 D2 b -> (forall r, D2 r -> D1 (t2 ++ r)) ->
  reads (bind m k) (t1 ++ t2) D2 b.
Proof.
  intros H1 H2 HD T s r I E d. apply wp_bind. rewrite <- app_assoc in E.
  apply (wp_reads _ _ _ _ _ _ _ _ _ H1 I E); [auto|]. intros s' E' A'.
  apply (wp_reads _ _ _ _ _ _ _ _ _ H2 (adv_inv _ _ _ A') E' d). intros s2 E2 A2.
  split; [reflexivity|]. split; [assumption|]. eapply adv_trans; eassumption.
Qed.
Lemma reads_ret {A} (a : A) D : reads (ret a) [] D a.
Proof. intros T s r I E d. apply wp_ret. split; [reflexivity|]. split; [assumption|]. now apply adv_refl. Qed.
Lemma reads_conseq {A} (m : M A) t (D D' : str -> Prop) a : (forall r, D' r -> D r) -> reads m t D a -> reads m t D' a.
Proof. intros HD H T s r I E d. apply H; auto. Qed.

Section WithEnv.
Context {E : Env}.

Lemma reads_next_char c : reads next_char [c] anything c.
Proof.
  intros T s r I Hs _. eapply wp_ok; [unfold next_char; rewrite Hs; reflexivity|].
  split; [reflexivity|]. split; [reflexivity|]. apply adv_set_rest; [assumption|]. rewrite Hs. apply suf_cons.
Qed.
Lemma reads_consume_char c : reads (consume_char c) [c] anything true.
Proof.
  intros T s r I Hs _. eapply wp_ok; [rewrite consume_char_eq, Hs; cbn [app]; rewrite N.eqb_refl; reflexivity|].
  split; [reflexivity|]. split; [reflexivity|]. apply adv_moved; [assumption|]. rewrite Hs. apply suf_cons.
Qed.
Lemma reads_consume_char_false c : reads (consume_char c) [] (starts_not (fun d => d =? c)) false.
Proof.
  intros T s r I Hs D. eapply wp_ok; [rewrite consume_char_eq, Hs; cbn [app]; destruct r; [reflexivity|]; cbn in D; rewrite D; reflexivity|].
  split; [reflexivity|]. split; [assumption|]. now apply adv_refl.
Qed.
Lemma reads_consume_str p : reads (consume_str p) p anything true.
Proof.
  intros T s r I Hs _. eapply wp_ok; [rewrite consume_str_eq, Hs, strip_prefix_app; reflexivity|].
  split; [reflexivity|]. split; [reflexivity|]. apply adv_moved; [assumption|]. rewrite Hs. apply suf_app.
Qed.
Lemma reads_expect_char c e : reads (expect_char c e) [c] anything tt.
Proof.
  unfold expect_char. apply (reads_bind _ _ [c] [] anything anything true tt); [apply reads_consume_char|apply reads_ret|auto].
Qed.
Lemma reads_advance p n : blen p = n -> reads (advance_bytes n) p anything tt.
Proof.
  intros L T s r I Hs _. eapply wp_ok; [exact (advance_ok _ _ p r Hs L)|].
  split; [reflexivity|]. split; [reflexivity|]. apply adv_moved; [assumption|]. rewrite Hs. apply suf_app.
Qed.

(** ** Escapes *)
Lemma hex_digit_val c d : hex_digit c d -> hex_val c = Some d.
Proof.
  intros H. unfold hex_val, is_digit. destruct H.
  - replace (_ && _) with true by lia. f_equal. lia.
  - replace (_ && _) with false by lia. replace (_ && _) with true by lia. f_equal. lia.
  - replace (_ && _) with false by lia. replace (_ && _) with false by lia. replace (_ && _) with true by lia. f_equal. lia.
Qed.
Lemma hex_digit_bound c d : hex_digit c d -> d < 16 /\ c <> c_rc /\ c <> c_us /\ c < 128.
Proof. destruct 1; lia. Qed.
Lemma reads_decode_hex c d : hex_digit c d -> reads (decode_hex c) [] anything d.
Proof. intros H. unfold decode_hex. rewrite (hex_digit_val _ _ H). apply reads_ret. Qed.
Lemma reads_decode_ascii a da b db : hex_digit a da -> hex_digit b db ->
  reads decode_ascii_escape [a; b] anything (da * 16 + db).
Proof.
  intros A B. unfold decode_ascii_escape.
  apply (reads_bind _ _ [a] [b] anything anything a); [apply reads_next_char| |auto].
  apply (reads_bind _ _ [] [b] anything anything da); [now apply reads_decode_hex| |auto].
  apply (reads_bind _ _ [b] [] anything anything b); [apply reads_next_char| |auto].
  apply (reads_bind _ _ [] [] anything anything db); [now apply reads_decode_hex| |auto].
  apply reads_ret.
Qed.

(** the value of the digits as a fold, for the loops *)
Definition hexv (c : char) : N := match hex_val c with Some d => d | None => 0 end.
Definition hex_char (c : char) : Prop := exists d, hex_digit c d.
Lemma hex_number_fold s n : hex_number s n -> Forall hex_char s /\ fold_left (fun a c => a * 16 + hexv c) s 0 = n.
Proof.
  induction 1 as [|s n c d H [F IH] D]; [split; [constructor|reflexivity]|]. split.
  - apply Forall_app. split; [assumption|]. repeat constructor. now exists d.
  - rewrite fold_left_app, IH. cbn. unfold hexv. now rewrite (hex_digit_val _ _ D).
Qed.
Lemma reads_unicode_digits s : forall n count acc, Forall hex_char s -> (length s <= n)%nat ->
  reads (unicode_digits n count acc) s (fun r => exists r', r = c_rc :: r')
        ((count + length s)%nat, fold_left (fun a c => a * 16 + hexv c) s acc).
Proof.
  induction s as [|c s IH]; intros n count acc F L T st r I Hs D.
  - rewrite Nat.add_0_r. cbn [fold_left]. destruct n as [|n]; cbn [unicode_digits].
    + apply wp_ret. split; [reflexivity|]. split; [assumption|]. now apply adv_refl.
    + destruct D as [r' ->]. eapply wp_bind_ok; [unfold peek_char_or_eof; rewrite Hs; reflexivity|].
      rewrite N.eqb_refl. apply wp_ret. split; [reflexivity|]. split; [assumption|]. now apply adv_refl.
  - inversion F as [|? ? [d Hd] F']; subst. destruct n as [|n]; [cbn in L; lia|]. cbn [unicode_digits].
    eapply wp_bind_ok; [unfold peek_char_or_eof; rewrite Hs; reflexivity|].
    destruct (hex_digit_bound _ _ Hd) as (_ & N1 & _). apply N.eqb_neq in N1. rewrite N1.
    eapply wp_bind_ok; [unfold skip_next_char, try, next_char; rewrite Hs; reflexivity|].
    eapply wp_bind_ok; [unfold decode_hex; rewrite (hex_digit_val _ _ Hd); reflexivity|].
    assert (A : adv T st (set_rest (s ++ r) st)) by (apply adv_set_rest; [assumption|rewrite Hs; apply suf_cons]).
    refine (wp_reads _ _ _ _ _ _ r _ _ (IH n (S count) (acc * 16 + d) F' _) (adv_inv _ _ _ A) eq_refl D _); [cbn in L; lia|].
    intros s' E' A'. split; [|split; [assumption|eapply adv_trans; eassumption]].
    cbn [length fold_left]. replace (hexv c) with d by (unfold hexv; now rewrite (hex_digit_val _ _ Hd)). f_equal. lia.
Qed.

(** byte escapes in text: collect until the bytes are a character *)
Lemma hex_bytes_length s bs : hex_bytes s bs -> (4 * length bs = S (length s))%nat.
Proof. induction 1; cbn [length] in *; lia. Qed.

Lemma escape_more_reads s bs : hex_bytes s bs -> forall n acc c, (length bs <= n)%nat ->
  is_scalar c = true -> enc_char c = acc ++ bs -> acc <> [] ->
  (forall p q, enc_char c = p ++ q -> q <> [] -> p <> [] -> from_utf8 p = None) ->
  reads (escape_more n acc) (c_bs :: s) anything (EscUtf8 c).
Proof.
  intros H. induction H as [a da b db A B|a da b db s bs A B H IH]; intros n acc c L Sc Ec NA Pr;
    (destruct n as [|n]; [cbn in L; lia|]); cbn [escape_more].
  - apply (reads_bind _ _ s_bsx [a; b] anything anything true); [apply reads_consume_str| |auto].
    refine (reads_bind _ _ [a; b] [] anything anything _ _ (reads_decode_ascii _ _ _ _ A B) _ _); [|auto].
    rewrite <- Ec. rewrite <- (app_nil_r (enc_char c)).
    change (enc_char c ++ []) with (enc [c]). rewrite from_utf8_enc by (repeat constructor; assumption). apply reads_ret.
  - apply (reads_bind _ _ s_bsx (a :: b :: c_bs :: s) anything anything true); [apply reads_consume_str| |auto].
    refine (reads_bind _ _ [a; b] (c_bs :: s) anything anything _ _ (reads_decode_ascii _ _ _ _ A B) _ _); [|auto].
    assert (Eq : enc_char c = (acc ++ [da * 16 + db]) ++ bs) by (now rewrite <- app_assoc).
    rewrite (Pr (acc ++ [da * 16 + db]) bs Eq).
    + apply IH; auto; [cbn in L; lia|]. now destruct acc.
    + destruct H; discriminate.
    + now destruct acc.
Qed.

Lemma enc_char_first c : is_scalar c = true -> 128 <= c -> exists b l, enc_char c = b :: l /\ 128 <= b.
Proof.
  intros S H. unfold enc_char. replace (c <? 128) with false by lia.
  destruct (c <? 2048); [|destruct (c <? 65536)]; eexists _, _; split; try reflexivity; lia.
Qed.
(** no proper prefix of an encoded character is valid *)
Lemma enc_char_prefix c p q : is_scalar c = true -> enc_char c = p ++ q -> q <> [] -> p <> [] -> from_utf8 p = None.
Proof.
  intros S Eq Q P. destruct (from_utf8 p) as [t|] eqn:F; [|reflexivity]. exfalso.
  apply from_utf8_spec in F as [W ->]. destruct t as [|d t]; [now apply P|].
  inversion W; subst. cbn [enc flat_map] in Eq. rewrite <- app_assoc in Eq.
  assert (X := dec_enc_char c [] S). rewrite app_nil_r, Eq in X. rewrite dec_enc_char in X by assumption.
  injection X as <- X. destruct (flat_map enc_char t); [|discriminate]. cbn in X. contradiction.
Qed.

Lemma reads_escape_bytes s c : is_scalar c = true -> hex_bytes s (enc_char c) ->
  reads (parse_escape false false) s anything (EscUtf8 c).
Proof.
  intros Sc H. unfold parse_escape.
  assert (HD : exists a b da db s', s = 120 :: a :: b :: s' /\ hex_digit a da /\ hex_digit b db /\
     ((s' = [] /\ enc_char c = [da * 16 + db]) \/
      exists s2 bs, s' = c_bs :: s2 /\ hex_bytes s2 bs /\ enc_char c = (da * 16 + db) :: bs)).
  { inversion H; subst; do 5 eexists; (split; [reflexivity|]); eauto 10. }
  clear H. destruct HD as (a & b & da & db & s' & -> & A & B & HD).
  apply (reads_bind _ _ [120] (a :: b :: s') anything anything 120); [apply reads_next_char| |auto].
  cbn [N.eqb Pos.eqb]. refine (reads_bind _ _ [a; b] s' anything anything _ _ (reads_decode_ascii _ _ _ _ A B) _ _); [|auto].
  cbn iota. destruct HD as [[-> Ec]|(s2 & bs & -> & H2 & Ec)].
  - rewrite <- Ec. rewrite <- (app_nil_r (enc_char c)).
    change (enc_char c ++ []) with (enc [c]). rewrite from_utf8_enc by (repeat constructor; assumption). apply reads_ret.
  - assert (NB : bs <> []) by (destruct H2; discriminate).
    rewrite (enc_char_prefix c [da * 16 + db] bs); auto; [|discriminate].
    apply (escape_more_reads s2 bs); auto; [|discriminate|].
    + assert (L := enc_char_len c). assert (L2 := len_utf8_pos c). rewrite Ec in L. cbn [length] in L. lia.
    + intros p q. now apply enc_char_prefix.
Qed.

Definition escape_bytes (e : escape) : bytes := match e with EscAscii b => [b] | EscUtf8 c => enc_char c end.

Lemma reads_escape_unicode b ch s c : (1 <= length s <= 6)%nat -> hex_number s c -> is_scalar c = true ->
  reads (parse_escape b ch) (117 :: c_lc :: s ++ [c_rc]) anything (EscUtf8 c).
Proof.
  intros L H Sc. apply hex_number_fold in H as [F V]. unfold parse_escape.
  apply (reads_bind _ _ [117] (c_lc :: s ++ [c_rc]) anything anything 117); [apply reads_next_char| |auto].
  cbn [N.eqb Pos.eqb].
  apply (reads_bind _ _ [c_lc] (s ++ [c_rc]) anything anything tt); [apply reads_expect_char| |auto].
  refine (reads_bind _ _ s [c_rc] _ anything _ _ (reads_unicode_digits s 6 0 0 F _) _ _); [lia| |].
  - rewrite V. replace (Nat.eqb (0 + length s) 0) with false by lia.
    apply (reads_bind _ _ [c_rc] [] anything anything tt); [apply reads_expect_char| |auto].
    rewrite Sc. apply reads_ret.
  - intros r _. now exists r.
Qed.
Lemma reads_escape_simple bin ch c b : simple_escape c b -> reads (parse_escape bin ch) [c] anything (EscAscii b).
Proof.
  intros H. unfold parse_escape.
  apply (reads_bind _ _ [c] [] anything anything c); [apply reads_next_char| |auto].
  destruct H; cbn [N.eqb Pos.eqb]; apply reads_ret.
Qed.
Lemma reads_escape_byte ch s b : hex_bytes s [b] -> reads (parse_escape true ch) s anything (EscAscii b).
Proof.
  intros H. unfold parse_escape. inversion H as [a da b' db A B|a da b' db s' bs A B H']; subst.
  - apply (reads_bind _ _ [120] [a; b'] anything anything 120); [apply reads_next_char| |auto].
    cbn [N.eqb Pos.eqb]. refine (reads_bind _ _ [a; b'] [] anything anything _ _ (reads_decode_ascii _ _ _ _ A B) _ _); [|auto].
    apply reads_ret.
  - inversion H'.
Qed.

Lemma reads_escape bin s bs : escape_seq bin s bs ->
  exists e, escape_bytes e = bs /\ reads (parse_escape bin false) s anything e.
Proof.
  destruct 1 as [c b H|s b -> H|s c -> Sc H|s c L H Sc].
  - exists (EscAscii b). split; [reflexivity|]. now apply reads_escape_simple.
  - exists (EscAscii b). split; [reflexivity|]. now apply reads_escape_byte.
  - exists (EscUtf8 c). split; [reflexivity|]. now apply reads_escape_bytes.
  - exists (EscUtf8 c). split; [reflexivity|]. now apply reads_escape_unicode.
Qed.

(** ** Quoted strings *)
Definition not_special (c : char) : bool := negb ((c =? c_dq) || (c =? c_bs)).

(** plain characters up to the end or the first escape *)
Lemma quoted_split bin t bs : quoted bin t bs ->
  exists p, forallb not_special p = true /\
    ((t = p /\ bs = enc p) \/
     exists e eb t' bs', t = p ++ c_bs :: e ++ t' /\ bs = enc p ++ eb ++ bs' /\
        escape_seq bin e eb /\ quoted bin t' bs').
Proof.
  induction 1 as [|c t bs N1 N2 H (p & F & IH)|e eb t bs H H' IH].
  - exists []. split; [reflexivity|]. auto.
  - exists (c :: p). split; [cbn; rewrite F; unfold not_special; lia|].
    destruct IH as [[-> ->]|(e & eb & t' & bs' & -> & -> & H1 & H2)]; [left; auto|].
    right. exists e, eb, t', bs'. cbn. rewrite <- app_assoc. auto.
  - exists []. split; [reflexivity|]. right. exists e, eb, t, bs. auto.
Qed.

Lemma find_char_app f p c r : forallb (fun d => negb (f d)) p = true -> f c = true ->
  find_char f (p ++ c :: r) = Some (p, c :: r).
Proof.
  intros H Hc. induction p as [|d p IH]; cbn [app find_char].
  - now rewrite Hc.
  - cbn [forallb] in H. apply andb_prop in H as [H1 H2]. destruct (f d); [discriminate|]. now rewrite IH.
Qed.
Lemma find_char_none f p : forallb (fun d => negb (f d)) p = true -> find_char f p = None.
Proof.
  intros H. induction p as [|d p IH]; [reflexivity|]. cbn [find_char forallb] in *.
  apply andb_prop in H as [H1 H2]. destruct (f d); [discriminate|]. now rewrite IH.
Qed.
Lemma forallb_weaken {A} (f g : A -> bool) l : (forall a, f a = true -> g a = true) -> forallb f l = true -> forallb g l = true.
Proof. intros H. rewrite !forallb_forall. auto. Qed.

(** what [escaped_byte_buf] and [raw_byte_buf] promise: the bytes, and the
    number of bytes from here to past the closing quote *)
Definition buffered T (s : st) (bs : bytes) (r : str) (x : bytes * nat) (s' : st) : Prop :=
  fst x = bs /\ adv T s s' /\ exists a, rest s' = a ++ r /\ blen a = snd x.

Lemma escaped_loop_reads bin : forall n t bs, (length t <= n)%nat -> quoted bin t bs ->
  forall T s p e eb acc r fuel, inv T s -> escape_seq bin e eb ->
  rest s = p ++ c_bs :: e ++ t ++ c_dq :: r -> (length (rest s) < fuel)%nat ->
  wp (escaped_loop fuel bin (blen p) acc) (buffered T s (acc ++ eb ++ bs) r) (fun _ _ => False) s.
Proof.
  induction n as [|n IH]; intros t bs L H T s p e eb acc r fuel I He Hs LF;
  (destruct fuel as [|fuel]; [lia|]); cbn [escaped_loop].
  all: apply wp_bind; refine (wp_reads _ (p ++ [c_bs]) anything _ _ _ (e ++ t ++ c_dq :: r) _ _ (reads_advance _ _ _) I _ Logic.I _);
    [rewrite blen_app; reflexivity|now rewrite <- app_assoc|].
  all: intros s1 E1 A1; apply wp_bind; destruct (reads_escape _ _ _ He) as (x & <- & RE).
  all: refine (wp_reads _ e anything _ _ _ (t ++ c_dq :: r) _ _ RE (adv_inv _ _ _ A1) E1 Logic.I _); intros s2 E2 A2.
  all: assert (A12 := adv_trans _ _ _ _ A1 A2).
  all: eapply wp_bind_ok; [unfold src; reflexivity|]; rewrite E2.
  all: destruct (quoted_split _ _ _ H) as (q & F & [[-> ->]|(e' & eb' & t' & bs' & -> & -> & He' & H')]).
  all: try (rewrite find_char_app by (first [reflexivity|assumption]); cbn [N.eqb Pos.eqb]; apply wp_ret; unfold buffered; cbn [fst snd];
    split; [destruct x; now rewrite <- !app_assoc|]; split; [assumption|];
    exists (q ++ [c_dq]); split; [now rewrite <- app_assoc|rewrite blen_app; reflexivity]).
  - rewrite app_length in L. cbn in L. lia.
  - replace ((q ++ c_bs :: e' ++ t') ++ c_dq :: r) with (q ++ c_bs :: e' ++ t' ++ c_dq :: r) in *
      by (rewrite <- app_assoc; cbn [app]; now rewrite <- app_assoc).
    rewrite find_char_app by (first [reflexivity|assumption]). rewrite N.eqb_refl.
    eapply wp_conseq; [eapply (IH t' bs')|intros [ab k] s3 (E3 & A3 & R3)|contradiction]; try eassumption.
    + rewrite app_length in L. cbn [length] in L. rewrite app_length in L. unfold str, char in *; lia.
    + apply (adv_inv _ _ _ A2).
    + rewrite E2. rewrite Hs, !app_length in LF. cbn [length] in LF. rewrite app_length in LF.
      unfold str, char in *; lia.
    + split; [|split; [eapply adv_trans; eassumption|assumption]].
      rewrite E3. destruct x; now rewrite <- !app_assoc.
Qed.

Lemma escaped_buf_reads bin t bs : quoted bin t bs ->
  forall T s r, inv T s -> rest s = t ++ c_dq :: r ->
  wp (escaped_byte_buf bin) (buffered T s bs r) (fun _ _ => False) s.
Proof.
  intros H T s r I Hs. unfold escaped_byte_buf.
  eapply wp_bind_ok; [unfold src; reflexivity|]. rewrite Hs.
  destruct (quoted_split _ _ _ H) as (q & F & [[-> ->]|(e & eb & t' & bs' & -> & -> & He & H')]).
  - rewrite find_char_app; [|eapply forallb_weaken; [|exact F]; intros a; unfold not_special; lia|reflexivity].
    rewrite find_char_none; [|eapply forallb_weaken; [|exact F]; intros a; unfold not_special; lia].
    apply wp_ret. split; [reflexivity|]. split; [now apply adv_refl|]. cbn [snd].
    exists (q ++ [c_dq]); split; [now rewrite <- app_assoc|rewrite blen_app; reflexivity].
  - replace ((q ++ c_bs :: e ++ t') ++ c_dq :: r) with (q ++ c_bs :: e ++ t' ++ c_dq :: r) in *
      by (rewrite <- app_assoc; cbn [app]; now rewrite <- app_assoc).
    (* some quote follows, and the first backslash comes before it *)
    destruct (find_char (fun c => c =? c_dq) (e ++ t' ++ c_dq :: r)) as [[a b]|] eqn:FC.
    2:{ exfalso. clear -FC. rewrite app_assoc in FC. induction (e ++ t') as [|c l IH]; cbn [app find_char] in FC.
        - discriminate.
        - destruct (c =? c_dq); [discriminate|]. destruct (find_char _ (l ++ _)) as [[? ?]|]; [discriminate|auto]. }
    replace (find_char (fun c => c =? c_dq) (q ++ c_bs :: e ++ t' ++ c_dq :: r)) with (Some (q ++ c_bs :: a, b)).
    2:{ clear -F FC. induction q as [|c q IH]; cbn [app find_char].
        - replace (c_bs =? c_dq) with false by reflexivity. now rewrite FC.
        - cbn [forallb] in F. apply andb_prop in F as [F1 F2]. unfold not_special in F1.
          destruct (c =? c_dq); [discriminate|]. now rewrite <- IH. }
    rewrite find_char_app; [|eapply forallb_weaken; [|exact F]; intros ?; unfold not_special; lia|reflexivity].
    refine (escaped_loop_reads bin (length t') t' bs' (le_n _) H' T s q e eb (enc q) r _ I He Hs _).
    rewrite Hs. unfold str, char in *. lia.
Qed.

(** ** Raw strings *)
Lemma find_str_first p s r : (forall a b, s = a ++ b -> b <> [] -> starts_with p (b ++ p ++ r) = false) ->
  find_str p (s ++ p ++ r) = Some (s, p ++ r).
Proof.
  induction s as [|c s IH]; intros H.
  - cbn [app]. assert (X : starts_with p (p ++ r) = true) by (unfold starts_with; now rewrite strip_prefix_app).
    destruct (p ++ r); cbn [find_str]; now rewrite X.
  - cbn [app find_str]. assert (X := H [] (c :: s) eq_refl). cbn [app] in X. rewrite X by discriminate.
    rewrite IH; [reflexivity|]. intros a b -> NB. apply (H (c :: a) b); auto.
Qed.
Lemma hashes_prefix n : forall s x y, strip_prefix (repeat c_hash n) (s ++ c_dq :: x) = Some y -> exists b, s = repeat c_hash n ++ b.
Proof.
  induction n as [|n IH]; intros s x y H; [now exists s|]. cbn [repeat strip_prefix] in H.
  destruct s as [|c s]; cbn [app strip_prefix] in H; [discriminate|].
  destruct (c_hash =? c) eqn:C; [|discriminate]. apply N.eqb_eq in C as <-.
  destruct (IH _ _ _ H) as [b ->]. now exists b.
Qed.
Lemma raw_find n s r : raw_body n s ->
  find_str (c_dq :: repeat c_hash n) (s ++ c_dq :: repeat c_hash n ++ r) = Some (s, c_dq :: repeat c_hash n ++ r).
Proof.
  intros H. change (c_dq :: repeat c_hash n ++ r) with ((c_dq :: repeat c_hash n) ++ r).
  apply find_str_first. intros a b -> NB. destruct b as [|c b]; [contradiction|]. unfold starts_with.
  cbn [app strip_prefix]. destruct (c_dq =? c) eqn:C; [|reflexivity]. apply N.eqb_eq in C as <-.
  destruct (strip_prefix _ _) as [y|] eqn:P; [|reflexivity]. apply hashes_prefix in P as [b' ->].
  exfalso. now apply (H a b').
Qed.
Lemma forallb_repeat {A} (f : A -> bool) a n : f a = true -> forallb f (repeat a n) = true.
Proof. intros H. induction n; cbn; [reflexivity|]. now rewrite H. Qed.
Lemma blen_ascii s : forallb (fun c => c <? 128) s = true -> blen s = length s.
Proof.
  induction s as [|c s IH]; [reflexivity|]. cbn [forallb blen length]. intros H. apply andb_prop in H as [H1 H2].
  rewrite IH by assumption. unfold len_utf8. now rewrite H1.
Qed.
Lemma raw_buf_reads n t : raw_body n t ->
  forall T s r, inv T s -> rest s = repeat c_hash n ++ c_dq :: t ++ c_dq :: repeat c_hash n ++ r ->
  wp raw_byte_buf (buffered T s (enc t) r) (fun _ _ => False) s.
Proof.
  intros H T s r I Hs. unfold raw_byte_buf.
  eapply wp_bind_ok; [apply next_while_eq|]. rewrite Hs, takewhile_app by (first [now apply forallb_repeat|reflexivity]).
  eapply wp_bind_ok; [unfold src; reflexivity|]. rewrite Hs.
  eapply wp_bind_ok; [rewrite btake_app; reflexivity|].
  apply wp_bind. eapply wp_reads; [apply reads_advance; reflexivity|exact I|exact Hs|exact Logic.I|]. intros s1 E1 A1.
  apply wp_bind. eapply wp_reads; [apply reads_expect_char|exact (adv_inv _ _ _ A1)|exact E1|exact Logic.I|]. intros s2 E2 A2.
  eapply wp_bind_ok; [unfold src; reflexivity|]. rewrite E2, raw_find by assumption.
  apply wp_ret. split; [reflexivity|]. split; [eapply adv_trans; eassumption|]. cbn [snd].
  exists (t ++ c_dq :: repeat c_hash n). split; [now rewrite <- app_assoc|].
  rewrite blen_app. cbn [blen]. replace (len_utf8 c_dq) with 1%nat by reflexivity. lia.
Qed.

(** ** String and byte string literals *)
Lemma reads_finish_string m t s0 : wf_str s0 -> (forall T s r, inv T s -> rest s = t ++ r ->
    wp m (buffered T s (enc s0) r) (fun _ _ => False) s) ->
  reads (finish_string m) t anything s0.
Proof.
  intros W H T s r I Hs _. unfold finish_string. apply wp_bind.
  eapply wp_conseq; [exact (H T s r I Hs)| |contradiction]. intros [bs k] s1 (E1 & A1 & a & R1 & B1). cbn [fst snd] in *. subst bs.
  rewrite from_utf8_enc by assumption. apply wp_bind.
  eapply wp_reads; [apply reads_advance; exact B1|apply (adv_inv _ _ _ A1)|exact R1|exact Logic.I|]. intros s2 E2 A2.
  apply wp_ret. split; [reflexivity|]. split; [assumption|]. eapply adv_trans; eassumption.
Qed.
Lemma reads_finish_bytes m t bs : (forall T s r, inv T s -> rest s = t ++ r ->
    wp m (buffered T s bs r) (fun _ _ => False) s) ->
  reads (finish_bytes m) t anything bs.
Proof.
  intros H T s r I Hs _. unfold finish_bytes. apply wp_bind.
  eapply wp_conseq; [exact (H T s r I Hs)| |contradiction]. intros [bs' k] s1 (E1 & A1 & a & R1 & B1). cbn [fst snd] in *. subst bs'.
  apply wp_bind.
  eapply wp_reads; [apply reads_advance; exact B1|apply (adv_inv _ _ _ A1)|exact R1|exact Logic.I|]. intros s2 E2 A2.
  apply wp_ret. split; [reflexivity|]. split; [assumption|]. eapply adv_trans; eassumption.
Qed.
Lemma reads_map_err {A} f (m : M A) t D a : reads m t D a -> reads (map_err f m) t D a.
Proof. intros H T s r I Hs d. apply wp_map_err. eapply wp_conseq; [now apply (H T s r)|auto|auto]. Qed.
Lemma reads_escaped_string t s : wf_str s -> quoted false t (enc s) -> reads escaped_string (t ++ [c_dq]) anything s.
Proof.
  intros W H. apply reads_finish_string; [assumption|]. intros T st r I Hs. rewrite <- app_assoc in Hs.
  eapply escaped_buf_reads; eassumption.
Qed.
Lemma reads_raw_string n s : wf_str s -> raw_body n s ->
  reads raw_string (repeat c_hash n ++ c_dq :: s ++ c_dq :: repeat c_hash n) anything s.
Proof.
  intros W H. apply reads_finish_string; [assumption|]. intros T st r I Hs.
  eapply raw_buf_reads; [eassumption..|]. rewrite Hs. rewrite <- app_assoc. cbn [app]. now rewrite <- app_assoc.
Qed.

Lemma reads_string t s : string_lit t s -> reads parse_string t anything s.
Proof.
  destruct 1 as [t s W H|n s W H]; unfold parse_string.
  - refine (reads_bind _ _ [c_dq] (t ++ [c_dq]) anything anything _ _ (reads_consume_char _) _ _); [|auto].
    now apply reads_escaped_string.
  - refine (reads_bind _ _ [] _ (starts_not (fun d => d =? c_dq)) anything _ _ (reads_consume_char_false _) _ _); [|reflexivity].
    refine (reads_bind _ _ [c_r] _ anything anything _ _ (reads_consume_char _) _ _); [|auto].
    now apply reads_raw_string.
Qed.
Lemma reads_consume_str_false p : reads (consume_str p) [] (fun r => starts_with p r = false) false.
Proof.
  intros T s r I Hs D. cbn [app] in Hs. unfold starts_with in D.
  eapply wp_ok; [rewrite consume_str_eq, Hs; destruct (strip_prefix p r); [discriminate|reflexivity]|].
  split; [reflexivity|]. split; [assumption|]. now apply adv_refl.
Qed.
Lemma reads_bytes_strict t bs : bytes_lit t bs -> reads byte_string_no_base64 t anything bs.
Proof.
  destruct 1 as [t bs H|n s H]; unfold byte_string_no_base64.
  - refine (reads_bind _ _ s_bdq (t ++ [c_dq]) anything anything _ _ (reads_consume_str _) _ _); [|auto].
    apply reads_finish_bytes. intros T s r I Hs. rewrite <- app_assoc in Hs. eapply escaped_buf_reads; eassumption.
  - refine (reads_bind _ _ [] _ (fun r => starts_with s_bdq r = false) anything _ _ (reads_consume_str_false _) _ _); [|reflexivity].
    refine (reads_bind _ _ s_br _ anything anything _ _ (reads_consume_str _) _ _); [|auto].
    apply reads_map_err. apply reads_finish_bytes. intros T st r I Hs.
    eapply raw_buf_reads; [eassumption..|]. rewrite Hs. rewrite <- app_assoc. cbn [app]. now rewrite <- app_assoc.
Qed.
Lemma reads_bytes t bs : bytes_lit t bs -> reads byte_string t anything bs.
Proof.
  intros H. unfold byte_string.
  refine (reads_bind _ _ [] _ (starts_not (fun d => d =? c_dq)) anything _ _ (reads_consume_char_false _) _ _);
    [|intros r _; destruct H; reflexivity].
  refine (reads_bind _ _ [] _ (starts_not (fun d => d =? c_r)) anything _ _ (reads_consume_char_false _) _ _);
    [|intros r _; destruct H; reflexivity].
  now apply reads_bytes_strict.
Qed.

(** ** Characters *)
Lemma reads_escape_char_hex a da b db : hex_digit a da -> hex_digit b db -> da * 16 + db < 128 ->
  reads (parse_escape false true) [120; a; b] anything (EscUtf8 (da * 16 + db)).
Proof.
  intros A B L. unfold parse_escape.
  apply (reads_bind _ _ [120] [a; b] anything anything 120); [apply reads_next_char| |auto].
  cbn [N.eqb Pos.eqb]. refine (reads_bind _ _ [a; b] [] anything anything _ _ (reads_decode_ascii _ _ _ _ A B) _ _); [|auto].
  cbn iota. set (c := da * 16 + db) in *.
  assert (X : [c] = enc [c]) by (unfold enc, enc_char; cbn [flat_map]; replace (c <? 128) with true by lia; reflexivity).
  rewrite X, from_utf8_enc; [apply reads_ret|]. constructor; [|constructor]. unfold is_scalar. lia.
Qed.
Lemma reads_char t c : char_lit t c -> reads parse_char t anything c.
Proof.
  destruct 1 as [c N|e c H|a da b db A B L|s c L H Sc]; unfold parse_char.
  - apply (reads_bind _ _ [c_sq] [c; c_sq] anything anything tt); [apply reads_expect_char| |auto].
    apply (reads_bind _ _ [c] [c_sq] anything anything c); [apply reads_next_char| |auto].
    replace (c =? c_bs) with false by lia.
    apply (reads_bind _ _ [] [c_sq] anything anything c); [apply reads_ret| |auto].
    apply (reads_bind _ _ [c_sq] [] anything anything tt); [apply reads_expect_char|apply reads_ret|auto].
  - apply (reads_bind _ _ [c_sq] [c_bs; e; c_sq] anything anything tt); [apply reads_expect_char| |auto].
    apply (reads_bind _ _ [c_bs] [e; c_sq] anything anything c_bs); [apply reads_next_char| |auto].
    rewrite N.eqb_refl. apply (reads_bind _ _ [e] [c_sq] anything anything c); [| |auto].
    + refine (reads_bind _ _ [e] [] anything anything _ _ (reads_escape_simple _ _ _ _ H) _ _); [apply reads_ret|auto].
    + apply (reads_bind _ _ [c_sq] [] anything anything tt); [apply reads_expect_char|apply reads_ret|auto].
  - apply (reads_bind _ _ [c_sq] [c_bs; 120; a; b; c_sq] anything anything tt); [apply reads_expect_char| |auto].
    apply (reads_bind _ _ [c_bs] [120; a; b; c_sq] anything anything c_bs); [apply reads_next_char| |auto].
    rewrite N.eqb_refl. apply (reads_bind _ _ [120; a; b] [c_sq] anything anything (da * 16 + db)); [| |auto].
    + refine (reads_bind _ _ [120; a; b] [] anything anything _ _ (reads_escape_char_hex _ _ _ _ A B L) _ _); [apply reads_ret|auto].
    + apply (reads_bind _ _ [c_sq] [] anything anything tt); [apply reads_expect_char|apply reads_ret|auto].
  - replace (117 :: c_lc :: s ++ [c_rc; c_sq]) with ((117 :: c_lc :: s ++ [c_rc]) ++ [c_sq])
      by (cbn [app]; now rewrite <- app_assoc).
    apply (reads_bind _ _ [c_sq] (c_bs :: _) anything anything tt); [apply reads_expect_char| |auto].
    apply (reads_bind _ _ [c_bs] (_ ++ [c_sq]) anything anything c_bs); [apply reads_next_char| |auto].
    rewrite N.eqb_refl. apply (reads_bind _ _ (117 :: c_lc :: s ++ [c_rc]) [c_sq] anything anything c); [| |auto].
    + rewrite <- (app_nil_r (117 :: c_lc :: s ++ [c_rc])).
      refine (reads_bind _ _ _ [] anything anything _ _ (reads_escape_unicode false true _ _ L H Sc) _ _); [apply reads_ret|auto].
    + apply (reads_bind _ _ [c_sq] [] anything anything tt); [apply reads_expect_char|apply reads_ret|auto].
Qed.

Lemma Forall_forallb {A} (P : A -> Prop) (f : A -> bool) l : (forall a, P a -> f a = true) -> Forall P l -> forallb f l = true.
Proof. intros H. rewrite forallb_forall, Forall_forall. auto. Qed.
Lemma starts_not_weaken (f g : char -> bool) r : (forall c, f c = true -> g c = true) -> starts_not g r -> starts_not f r.
Proof. intros H. destruct r; cbn; [auto|]. intros G. destruct (f c) eqn:F; [|reflexivity]. rewrite (H _ F) in G. discriminate. Qed.

(** ** Identifiers *)
Section Idents.
Context {X : XidOk E}.

Definition special (c : char) : bool := (c =? c_hash) || (c =? c_dq) || (c =? c_sq).
Lemma raw_not_special c : is_ident_raw_char c = true -> special c = false.
Proof.
  unfold is_ident_raw_char, special. intros H.
  destruct (c <? 128) eqn:L; [|lia].
  rewrite xid_continue_ascii in H by lia. unfold is_alpha, is_digit in H. lia.
Qed.
Lemma not_string_literal t : (exists c d r, t = c :: d :: r /\ special c = false /\ special d = false /\
    (match r with [] => true | e :: _ => negb (special e) end = true \/
     (c =? c_b) && (d =? c_r) = false)) \/
   (exists c, t = [c]) \/ t = [] -> starts_string_literal t = false.
Proof.
  intros [(c & d & r & -> & C & D & H)|[[c ->]| ->]].
  - unfold starts_string_literal, starts_with, special in *.
    cbn -[N.eqb]. replace (c_b =? c) with (c =? c_b) by apply N.eqb_sym. replace (c_r =? c) with (c =? c_r) by apply N.eqb_sym.
    replace (c_dq =? d) with false by lia. replace (c_sq =? d) with false by lia. replace (c_hash =? d) with false by lia.
    replace (c_r =? d) with (d =? c_r) by apply N.eqb_sym.
    destruct (c =? c_b) eqn:B; destruct (c =? c_r) eqn:R; destruct (d =? c_r) eqn:DR; try reflexivity; try lia;
    (destruct r as [|e r]; [reflexivity|]);
    (destruct H as [H|H]; [|discriminate]);
    replace (c_dq =? e) with false by lia; replace (c_hash =? e) with false by lia; reflexivity.
  - unfold starts_string_literal, starts_with. cbn -[N.eqb].
    destruct (c_b =? c); destruct (c_r =? c); reflexivity.
  - reflexivity.
Qed.
Lemma ident_end_special c r : ident_end (c :: r) -> special c = false.
Proof. unfold ident_end, special. lia. Qed.
Lemma ident_end_raw r : ident_end r -> starts_not is_ident_raw_char r.
Proof. destruct r; cbn; tauto. Qed.
Lemma ident_end_xid r : ident_end r -> starts_not xid_continue r.
Proof. intros H. eapply starts_not_weaken; [apply continue_raw|]. now apply ident_end_raw. Qed.

(** no string literal starts where an identifier is *)
Lemma plain_not_string n r : n <> [] -> forallb (fun c => negb (special c)) n = true -> ident_end r ->
  starts_string_literal (n ++ r) = false.
Proof.
  intros NE F D. apply not_string_literal.
  destruct n as [|c [|d n]]; [contradiction| |].
  - cbn [app]. destruct r as [|d r]; [right; left; eauto|].
    left. exists c, d, r. cbn in F. split; [reflexivity|].
    split; [destruct (special c); [discriminate|reflexivity]|].
    split; [now apply ident_end_special with r|]. right. destruct (d =? c_r) eqn:DR; [|now rewrite andb_false_r].
    apply N.eqb_eq in DR as ->. destruct D as [D _]. exfalso. revert D. unfold is_ident_raw_char.
    rewrite xid_continue_ascii by reflexivity. cbn. discriminate.
  - left. exists c, d, (n ++ r). cbn in F. apply andb_prop in F as [F1 F]. apply andb_prop in F as [F2 F].
    split; [reflexivity|]. split; [destruct (special c); [discriminate|reflexivity]|].
    split; [destruct (special d); [discriminate|reflexivity]|]. left.
    destruct n as [|e n]; cbn [app].
    + destruct r as [|e r]; [reflexivity|]. rewrite (ident_end_special _ _ D). reflexivity.
    + cbn in F. now apply andb_prop in F as [F3 F].
Qed.
Lemma raw_no_special n : forallb is_ident_raw_char n = true -> forallb (fun c => negb (special c)) n = true.
Proof. apply forallb_weaken. intros c H. now rewrite (raw_not_special c H). Qed.
Lemma raw_ident_not_string n r : n <> [] -> forallb is_ident_raw_char n = true ->
  starts_string_literal (c_r :: c_hash :: n ++ r) = false.
Proof.
  intros NE F. destruct n as [|c n]; [contradiction|]. cbn [forallb] in F. apply andb_prop in F as [F _].
  apply raw_not_special in F. unfold special in F. unfold starts_string_literal, starts_with. cbn -[N.eqb].
  replace (c_b =? c_r) with false by reflexivity. rewrite !N.eqb_refl. replace (c_dq =? c_hash) with false by reflexivity.
  replace (c_dq =? c) with false by lia. replace (c_hash =? c) with false by lia. reflexivity.
Qed.
Lemma plain_rh n r : n <> [] -> forallb (fun c => negb (special c)) n = true -> ident_end r -> starts_with s_rh (n ++ r) = false.
Proof.
  intros NE F D. destruct n as [|c n]; [contradiction|]. unfold starts_with, s_rh. cbn [app strip_prefix].
  destruct (c_r =? c); [|reflexivity]. destruct n as [|d n]; cbn [app].
  - destruct r as [|d r]; [reflexivity|]. apply ident_end_special in D. unfold special in D.
    replace (c_hash =? d) with false by lia. reflexivity.
  - cbn in F. apply andb_prop in F as [_ F]. apply andb_prop in F as [F _].
    replace (c_hash =? d) with false by (unfold special in F; lia). reflexivity.
Qed.
Lemma ident_plain_raw c r : is_ident_first_char c = true -> forallb xid_continue r = true ->
  forallb is_ident_raw_char (c :: r) = true.
Proof.
  intros F1 F2. cbn [forallb]. rewrite (continue_raw c (first_continue c F1)). eapply forallb_weaken; [apply continue_raw|exact F2].
Qed.
Lemma blen_pos c r : (0 < blen (c :: r))%nat.
Proof. cbn [blen]. assert (PP := len_utf8_pos c). lia. Qed.

Lemma reads_identifier t n : ident_lit t n -> reads identifier t ident_end n.
Proof.
  intros H T s r I Hs D. destruct H as [c n F1 F2|n NE F]; unfold identifier.
  - assert (FR := ident_plain_raw _ _ F1 F2). assert (FS := raw_no_special _ FR).
    eapply wp_bind_ok; [unfold peek_char_or_eof; rewrite Hs; reflexivity|].
    eapply wp_bind_ok; [unfold src; reflexivity|]. rewrite F1. cbn [negb]. rewrite Hs.
    rewrite plain_not_string, plain_rh by (first [discriminate|assumption]).
    assert (L : blen (c :: n) = blen (takewhile is_ident_raw_char (rest s))).
    { rewrite Hs, takewhile_app; [reflexivity|assumption|now apply ident_end_raw]. }
    eapply wp_bind. eapply wp_ok with (a := blen (c :: n)) (s' := s).
    { destruct (c =? c_r).
      - unfold bind at 1. rewrite next_while_eq, Hs, takewhile_app; [| |now apply ident_end_xid].
        2:{ cbn [forallb]. now rewrite (first_continue c F1). }
        unfold bind. rewrite next_while_eq, <- L, Nat.ltb_irrefl. reflexivity.
      - unfold bind. rewrite (next_while_from_eq xid_continue s [c] (n ++ r)) by (first [exact Hs|cbn; lia]).
        rewrite takewhile_app; [|assumption|now apply ident_end_xid]. unfold ret.
        rewrite next_while_eq, <- L. cbn [blen]. rewrite Nat.ltb_irrefl. reflexivity. }
    eapply wp_bind_ok; [unfold src; reflexivity|]. rewrite Hs. eapply wp_bind_ok; [rewrite btake_app; reflexivity|].
    apply wp_bind. eapply wp_reads; [apply reads_advance; reflexivity|exact I|exact Hs|exact Logic.I|]. intros s1 E1 A1.
    apply wp_ret. auto.
  - eapply wp_bind_ok; [unfold peek_char_or_eof; rewrite Hs; reflexivity|].
    eapply wp_bind_ok; [unfold src; reflexivity|].
    assert (FC : is_ident_first_char c_r = true).
    { unfold is_ident_first_char. rewrite xid_start_ascii by reflexivity. reflexivity. }
    rewrite FC. cbn [negb]. rewrite Hs. cbn [app]. rewrite raw_ident_not_string by assumption.
    replace (starts_with s_rh (c_r :: c_hash :: n ++ r)) with true by reflexivity.
    apply wp_bind. eapply wp_bind_ok; [unfold get_cursor_m, bind, get, ret; reflexivity|].
    apply wp_bind. eapply wp_reads; [apply (reads_advance [c_r; c_hash]); reflexivity|exact I|exact Hs|exact Logic.I|].
    intros s1 E1 A1. change (rest s1 = n ++ r) in E1. destruct n as [|c n]; [contradiction|]. cbn [forallb] in F.
    eapply wp_bind_ok; [unfold peek_char; rewrite E1; reflexivity|]. cbn [app].
    apply andb_prop in F as [F1 F2]. rewrite F1.
    eapply wp_ok; [apply next_while_eq|]. rewrite E1, takewhile_app; [| |now apply ident_end_raw].
    2:{ cbn [forallb]. now rewrite F1. }
    eapply wp_bind_ok; [unfold src; reflexivity|]. rewrite E1. eapply wp_bind_ok; [rewrite btake_app; reflexivity|].
    apply wp_bind. eapply wp_reads; [apply reads_advance; reflexivity|apply (adv_inv _ _ _ A1)|exact E1|exact Logic.I|].
    intros s2 E2 A2. apply wp_ret. split; [reflexivity|]. split; [assumption|]. eapply adv_trans; eassumption.
Qed.
Lemma reads_skip_identifier t n : ident_lit t n -> reads skip_identifier t ident_end (Some n).
Proof.
  intros H T s r I Hs D. unfold skip_identifier. eapply wp_bind_ok; [unfold src; reflexivity|]. rewrite Hs.
  destruct H as [c n F1 F2|n NE F].
  - assert (FR := ident_plain_raw _ _ F1 F2). assert (FS := raw_no_special _ FR).
    rewrite plain_not_string, plain_rh by (first [discriminate|assumption]). cbn [app]. rewrite F1.
    eapply wp_bind_ok; [apply (next_while_from_eq xid_continue s [c] (n ++ r)); [exact Hs|cbn; lia]|].
    rewrite takewhile_app; [|assumption|now apply ident_end_xid].
    change (len_utf8 c + blen n)%nat with (blen (c :: n)). change (c :: n ++ r) with ((c :: n) ++ r).
    eapply wp_bind_ok; [rewrite btake_app; reflexivity|].
    apply wp_bind. eapply wp_reads; [apply reads_advance; reflexivity|exact I|exact Hs|exact Logic.I|]. intros s1 E1 A1.
    apply wp_ret. auto.
  - cbn [app]. rewrite raw_ident_not_string by assumption.
    replace (starts_with s_rh (c_r :: c_hash :: n ++ r)) with true by reflexivity.
    eapply wp_bind_ok; [apply (next_while_from_eq is_ident_raw_char s [c_r; c_hash] (n ++ r)); [exact Hs|reflexivity]|].
    rewrite takewhile_app; [|assumption|now apply ident_end_raw].
    destruct n as [|c n]; [contradiction|]. replace (Nat.ltb 0 (blen (c :: n))) with true by (assert (BP := blen_pos c n); lia).
    change (c_r :: c_hash :: (c :: n) ++ r) with ([c_r; c_hash] ++ (c :: n) ++ r).
    eapply wp_bind_ok; [unfold of_slice; replace (bdrop 2 _) with (Some ((c :: n) ++ r)) by (symmetry; apply (bdrop_app [c_r; c_hash])); reflexivity|].
    eapply wp_bind_ok; [rewrite btake_app; reflexivity|].
    apply wp_bind. eapply wp_reads; [apply (reads_advance ([c_r; c_hash] ++ c :: n)); reflexivity|exact I|exact Hs|exact Logic.I|].
    intros s1 E1 A1. apply wp_ret. auto.
Qed.
End Idents.

(** ** Integers *)
Section Ints.
Context {X : XidOk E}.

Definition int_step (base : Z) (a : Z) (c : char) : Z :=
  if c =? c_us then a else (a * base + Z.of_N (hexv c))%Z.
Definition int_digit (base : Z) (c : char) : Prop :=
  c = c_us \/ exists d, hex_digit c d /\ (Z.of_N d < base)%Z.
Lemma int_number_fold base s z : int_number base s z ->
  Forall (int_digit base) s /\ fold_left (int_step base) s 0%Z = z /\
  (exists c s', s = c :: s' /\ c <> c_us).
Proof.
  assert (V : forall a c d, hex_digit c d -> int_step base a c = (a * base + Z.of_N d)%Z).
  { intros a c d H. unfold int_step, hexv. rewrite (hex_digit_val _ _ H).
    destruct (hex_digit_bound _ _ H) as (_ & _ & N1 & _). apply N.eqb_neq in N1. now rewrite N1. }
  induction 1 as [c d H L|s z c d H (F & IH & c' & s' & -> & NU) D L|s z H (F & IH & c' & s' & -> & NU)].
  - repeat split.
    + constructor; [right; eauto|constructor].
    + cbn. rewrite (V _ _ _ H). lia.
    + exists c, []. split; [reflexivity|]. now destruct (hex_digit_bound _ _ H) as (_ & _ & ? & _).
  - repeat split.
    + apply Forall_app. split; [assumption|]. constructor; [right; eauto|constructor].
    + rewrite fold_left_app, IH. cbn. now rewrite (V _ _ _ D).
    + exists c', (s' ++ [c]). auto.
  - repeat split.
    + apply Forall_app. split; [assumption|]. constructor; [now left|constructor].
    + rewrite fold_left_app, IH. cbn. reflexivity.
    + exists c', (s' ++ [c_us]). auto.
Qed.
Lemma in_range_mono k neg m m' : (0 <= m <= m')%Z -> in_range k (signed_value neg m') = true ->
  in_range k (signed_value neg m) = true.
Proof.
  unfold in_range. intros H R.
  assert (M : (ik_min k <= 0 <= ik_max k)%Z) by (destruct k; cbn; lia).
  destruct neg; cbn in *; lia.
Qed.
Lemma in_range_0 k : in_range k 0 = true.
Proof. destruct k; reflexivity. Qed.
Lemma int_fold_mono base s : (2 <= base)%Z -> Forall (int_digit base) s -> forall a, (0 <= a)%Z ->
  (a <= fold_left (int_step base) s a)%Z.
Proof.
  intros B. induction 1 as [|c s H F IH]; intros a A; [cbn; lia|]. cbn [fold_left].
  assert (L : (a <= int_step base a c)%Z) by (unfold int_step; destruct (_ =? _); nia).
  etransitivity; [exact L|]. apply IH. lia.
Qed.

Lemma signed_mul (neg : bool) (m base : Z) : (signed_value neg m * base)%Z = signed_value neg (m * base)%Z.
Proof. destruct neg; cbn; lia. Qed.
Lemma signed_add (neg : bool) (m base d : Z) :
  (if neg then signed_value neg m * base - d else signed_value neg m * base + d)%Z = signed_value neg (m * base + d)%Z.
Proof. destruct neg; cbn; lia. Qed.

(** both outcomes of the digit loop *)
Lemma int_digits_wp k base neg whole s : (2 <= base)%Z -> Forall (int_digit base) s ->
  forall i m T s0 p r, (0 <= m)%Z -> in_range k (signed_value neg m) = true ->
  inv T s0 -> rest s0 = p ++ r -> blen p = whole ->
  wp (int_digits k base neg whole i s (signed_value neg m))
     (fun z s' => let v := signed_value neg (fold_left (int_step base) s m) in
        in_range k v = true /\ z = v /\ rest s' = r /\ adv T s0 s')
     (fun e _ => in_range k (signed_value neg (fold_left (int_step base) s m)) = false /\
                 e = EIntegerOutOfBounds) s0.
Proof.
  intros B. induction 1 as [|c s H F IH]; intros i m T s0 p r MP R I Hs L; cbn [int_digits fold_left].
  - apply wp_bind. eapply wp_reads; [apply reads_advance; exact L|exact I|exact Hs|exact Logic.I|]. intros s' E' A'.
    apply wp_ret. auto.
  - assert (NO : forall (Q' : Z -> st -> Prop) (R' : err -> Prop) e, R' e -> wp (advance_bytes whole ;;; fail e : M Z) Q' (fun e' _ => R' e') s0).
    { intros Q' R' e HR. apply wp_bind. eapply wp_reads; [apply reads_advance; exact L|exact I|exact Hs|exact Logic.I|].
      intros s' E' A'. now apply wp_fail. }
    destruct H as [->|[d [H Hd]]].
    + rewrite N.eqb_refl. unfold int_step at 2 4. cbn [N.eqb Pos.eqb]. eapply IH; eauto.
    + destruct (hex_digit_bound _ _ H) as (_ & _ & N1 & _). apply N.eqb_neq in N1. rewrite N1.
      assert (ST : int_step base m c = (m * base + Z.of_N d)%Z).
      { unfold int_step, hexv. now rewrite N1, (hex_digit_val _ _ H). }
      rewrite ST. set (m' := (m * base + Z.of_N d)%Z) in *.
      assert (M' : (0 <= m * base <= m')%Z) by (unfold m'; nia).
      assert (GE : (m' <= fold_left (int_step base) s m')%Z) by (apply int_fold_mono; auto; lia).
      rewrite signed_mul.
      destruct (in_range k (signed_value neg (m * base))) eqn:R1; cbn [negb].
      2:{ apply (NO _ (fun e => _ = false /\ e = EIntegerOutOfBounds)). split; [|reflexivity].
          destruct (in_range k (signed_value neg (fold_left _ _ _))) eqn:R2; [|reflexivity].
          rewrite (in_range_mono k neg _ _ (conj (proj1 M') (Z.le_trans _ _ _ (proj2 M') GE)) R2) in R1. discriminate. }
      eapply wp_bind_ok; [unfold decode_hex; rewrite (hex_digit_val _ _ H); reflexivity|].
      replace (base <=? Z.of_N d)%Z with false by lia. rewrite <- signed_mul, signed_add. fold m'.
      destruct (in_range k (signed_value neg m')) eqn:R3; cbn [negb].
      * eapply IH; eauto. lia.
      * apply (NO _ (fun e => _ = false /\ e = EIntegerOutOfBounds)). split; [|reflexivity].
        destruct (in_range k (signed_value neg (fold_left _ _ _))) eqn:R2; [|reflexivity].
        rewrite (in_range_mono k neg m' _ (conj (Z.le_trans _ _ _ (proj1 M') (proj2 M')) GE) R2) in R3. discriminate.
Qed.

Lemma int_digit_char base c : int_digit base c -> is_int_char c = true.
Proof.
  intros [->|(d & H & _)]; [reflexivity|]. unfold is_int_char, is_hexdigit, is_digit. destruct H; lia.
Qed.
Lemma int_char_xid c : is_int_char c = true -> xid_continue c = true.
Proof.
  unfold is_int_char, is_hexdigit, is_digit. intros H. rewrite xid_continue_ascii; [unfold is_alpha, is_digit; lia|].
  lia.
Qed.
(** the outcome at a type: the value if it fits, else out of bounds *)
Definition int_outcome {A} T s (k : ik) (v : Z) (a : A) (r : str) (a' : A) (s' : st) : Prop :=
  in_range k v = true /\ a' = a /\ rest s' = r /\ adv T s s'.
Definition int_refused (k : ik) (v : Z) (e : err) (s' : st) : Prop :=
  in_range k v = false /\ e = EIntegerOutOfBounds.

Lemma parse_integer_wp k base neg ds z T s r : (2 <= base)%Z -> int_number base ds z ->
  inv T s -> rest s = ds ++ r -> starts_not is_int_char r ->
  wp (parse_integer k neg base) (int_outcome T s k (signed_value neg z) (signed_value neg z) r)
     (int_refused k (signed_value neg z)) s.
Proof.
  intros B H I Hs D. apply int_number_fold in H as (F & V & c & s' & -> & NU). unfold parse_integer.
  assert (FB : forallb is_int_char (c :: s') = true) by (eapply Forall_forallb; [apply int_digit_char|exact F]).
  eapply wp_bind_ok; [apply next_while_eq|]. rewrite Hs, takewhile_app by assumption.
  replace (Nat.eqb (blen (c :: s')) 0) with false
    by (cbn [blen]; assert (PP := len_utf8_pos c); destruct (len_utf8 c); [lia|reflexivity]).
  eapply wp_bind_ok; [unfold check_char; rewrite Hs; cbn [app]; apply N.eqb_neq in NU; rewrite NU; reflexivity|].
  eapply wp_bind_ok; [unfold src; reflexivity|]. rewrite Hs.
  eapply wp_bind_ok; [rewrite btake_app; reflexivity|].
  replace 0%Z with (signed_value neg 0) by (destruct neg; reflexivity).
  eapply wp_conseq; [eapply (int_digits_wp k base neg _ (c :: s') B F); eauto; try lia| |].
  - destruct neg; apply in_range_0.
  - intros a s2. cbv zeta. rewrite V. unfold int_outcome. auto.
  - intros e s2. rewrite V. unfold int_refused. auto.
Qed.
Lemma suffix_char k : exists c t, ik_suffix k = c :: t /\ (c = 105 \/ c = 117).
Proof. destruct k; cbn; eauto. Qed.
Lemma suffix_xid k : forallb xid_continue (ik_suffix k) = true.
Proof. destruct k; cbn; rewrite !xid_continue_ascii by reflexivity; reflexivity. Qed.

Lemma reads_suffix k : int_supported k = true ->
  reads (consume_int_suffix int_suffixes) (ik_suffix k) (starts_not xid_continue) (Some k).
Proof.
  intros SP T s r I Hs D.
  assert (IN : In k int_suffixes) by (unfold int_supported in SP; unfold int_suffixes;
    destruct int128; destruct k; try discriminate SP; cbn; tauto).
  induction int_suffixes as [|j l IH]; [destruct IN|]. cbn [consume_int_suffix].
  destruct (ik_eqb j k) eqn:JK.
  - assert (j = k) as -> by (destruct j, k; try discriminate; reflexivity).
    apply wp_bind. eapply wp_ok; [apply (consume_ident_true _ _ _ Hs D)|]. apply wp_ret.
    split; [reflexivity|]. split; [reflexivity|]. apply adv_moved; [assumption|]. rewrite Hs. apply suf_app.
  - assert (N1 : j <> k) by (intros ->; destruct k; discriminate).
    eapply wp_bind_ok; [apply consume_ident_false; rewrite Hs; unfold ident_at; destruct j, k; try discriminate JK; try reflexivity|].
    apply IH. destruct IN; congruence.
Qed.

Lemma reads_skip_suffix k : reads skip_identifier (ik_suffix k) (starts_not xid_continue) (Some (ik_suffix k)).
Proof.
  intros T s r I Hs D. unfold skip_identifier. eapply wp_bind_ok; [unfold src; reflexivity|]. rewrite Hs.
  replace (starts_string_literal (ik_suffix k ++ r)) with false by (destruct k; reflexivity).
  replace (starts_with s_rh (ik_suffix k ++ r)) with false by (destruct k; reflexivity).
  assert (FX := suffix_xid k). destruct (ik_suffix k) as [|c n] eqn:SK; [destruct k; discriminate|].
  cbn [app]. replace (is_ident_first_char c) with true.
  2:{ unfold is_ident_first_char. destruct k; injection SK as <- <-; rewrite xid_start_ascii by reflexivity; reflexivity. }
  cbn [forallb] in FX. apply andb_prop in FX as [_ FX].
  eapply wp_bind_ok; [apply (next_while_from_eq xid_continue s [c] (n ++ r)); [exact Hs|cbn; lia]|].
  rewrite takewhile_app by assumption.
  change (len_utf8 c + blen n)%nat with (blen (c :: n)). change (c :: n ++ r) with ((c :: n) ++ r).
  eapply wp_bind_ok; [rewrite btake_app; reflexivity|].
  apply wp_bind. eapply wp_reads; [apply reads_advance; reflexivity|exact I|exact Hs|exact Logic.I|]. intros s1 E1 A1.
  apply wp_ret. auto.
Qed.

(** the type whose range counts, and the result *)
Definition int_target (t : option ik) (neg : bool) : ik :=
  match t with Some k => k | None => if neg then large_sint else large_uint end.
Definition int_result (t : option ik) (neg : bool) (z : Z) : ik * Z :=
  (match t with Some k => k | None => if neg then narrow_signed z else narrow_unsigned z end, z).

Lemma int_parse_wp t neg base ds z T s r : (2 <= base)%Z -> int_number base ds z ->
  inv T s -> rest s = ds ++ r -> starts_not is_int_char r ->
  let v := signed_value neg z in
  wp (int_parse t neg base) (int_outcome T s (int_target t neg) v (int_result t neg v) r)
     (int_refused (int_target t neg) v) s.
Proof.
  intros B H I Hs D v. subst v. unfold int_parse, int_target, int_result.
  destruct t as [k|]; [|destruct neg]; apply wp_bind;
  (eapply wp_conseq; [eapply parse_integer_wp; eassumption| |auto]);
  intros a s' (R1 & -> & R2); apply wp_ret; unfold int_outcome; auto.
Qed.

Lemma integer_body_wp t neg base backup ds z T s r : (2 <= base)%Z -> int_number base ds z ->
  inv T s -> rest s = ds ++ r -> starts_not xid_continue r ->
  let v := signed_value neg z in
  wp (integer_body t neg base backup) (int_outcome T s (int_target t neg) v (int_result t neg v) r)
     (int_refused (int_target t neg) v) s.
Proof.
  intros B H I Hs D v. assert (D' : starts_not is_int_char r) by (eapply starts_not_weaken; [apply int_char_xid|exact D]).
  assert (G := int_parse_wp t neg base ds z T s r B H I Hs D'). cbv zeta in G. fold v in G.
  assert (N := H). apply int_number_fold in N as (F & _).
  assert (FB : forallb is_int_char ds = true) by (eapply Forall_forallb; [apply int_digit_char|exact F]).
  unfold integer_body. eapply wp_bind_ok; [apply next_while_eq|]. rewrite Hs, takewhile_app by assumption.
  eapply wp_bind_ok; [unfold src; reflexivity|]. rewrite Hs.
  eapply wp_bind_ok; [rewrite bdrop_app; reflexivity|]. cbv zeta.
  destruct r as [|c r]; [exact G|].
  replace ((c =? 105) || (c =? 117)) with false; [exact G|].
  destruct ((c =? 105) || (c =? 117)) eqn:C; [|reflexivity]. exfalso. cbn in D.
  rewrite xid_continue_ascii in D by lia. unfold is_alpha in D. lia.
Qed.

(** with a suffix *)
Lemma integer_body_suffix_wp t neg base backup ds z k T s r : (2 <= base)%Z -> int_number base ds z ->
  int_supported k = true -> inv T s -> rest s = ds ++ ik_suffix k ++ r -> suf (rest s) backup ->
  starts_not xid_continue r ->
  let v := signed_value neg z in
  wp (integer_body t neg base backup)
     (fun a s' => (t = None \/ t = Some k) /\ int_outcome T s k v (k, v) r a s')
     (fun e s' => int_refused k v e s' \/
                  in_range k v = true /\ t <> None /\ t <> Some k /\ e = EInvalidValueForType) s.
Proof.
  intros B H SK I Hs SB D v. destruct (suffix_char k) as (c & t' & Ek & Hc).
  assert (D' : starts_not is_int_char (ik_suffix k ++ r)).
  { rewrite Ek. cbn. unfold is_int_char, is_hexdigit, is_digit. lia. }
  assert (N := H). apply int_number_fold in N as (F & _).
  assert (FB : forallb is_int_char ds = true) by (eapply Forall_forallb; [apply int_digit_char|exact F]).
  unfold integer_body. eapply wp_bind_ok; [apply next_while_eq|]. rewrite Hs, takewhile_app by assumption.
  eapply wp_bind_ok; [unfold src; reflexivity|]. rewrite Hs.
  eapply wp_bind_ok; [rewrite bdrop_app; reflexivity|]. cbv zeta.
  remember (ik_suffix k ++ r) as tl eqn:TL. destruct tl as [|c0 tl]; [rewrite Ek in TL; discriminate|].
  assert (c0 = c) as -> by (rewrite Ek in TL; now injection TL as -> _).
  replace ((c =? 105) || (c =? 117)) with true by lia.
  eapply wp_bind_ok; [unfold get_cursor_m, bind, get, ret; reflexivity|].
  apply wp_bind. eapply wp_reads; [apply reads_advance; reflexivity|exact I|exact Hs|exact Logic.I|]. intros s1 E1 A1.
  apply wp_bind. rewrite TL in E1.
  eapply wp_reads; [apply (reads_suffix _ SK)|apply (adv_inv _ _ _ A1)|exact E1|exact D|]. intros s2 E2 A2.
  eapply wp_bind_ok; [unfold src; reflexivity|]. rewrite E2.
  assert (A12 := adv_trans _ _ _ _ A1 A2).
  apply wp_bind, wp_modify. assert (A3 := adv_rewind T s s2 I A12). set (s3 := set_cursor _ s2) in *.
  assert (E3 : rest s3 = ds ++ c :: tl) by (rewrite <- Hs; reflexivity).
  assert (SR : suf r backup).
  { eapply suf_trans; [|exact SB]. rewrite Hs, TL. exists (ds ++ ik_suffix k). now rewrite <- app_assoc. }
  apply wp_try. eapply wp_conseq; [apply (wp_and _ _ _ _ _ _
      (parse_integer_wp k base neg ds z T s3 (c :: tl) B H (adv_inv _ _ _ A3) E3 D')
      (total_parse_integer k neg base T s3 (adv_inv _ _ _ A3)))| |].
  - intros a s4 [(R1 & -> & R2 & A4) _]. apply wp_bind. rewrite TL in R2.
    eapply wp_reads; [apply reads_skip_suffix|apply (adv_inv _ _ _ A4)|exact R2|exact D|]. intros s5 E5 A5.
    apply wp_bind, wp_bind, wp_slice_before; [assumption|]. intros p _. apply wp_ret.
    unfold try_from_parsed_integer. fold v in R1. fold v.
    assert (AA : adv T s s5) by eauto using adv_trans.
    destruct t as [k'|]; [|apply wp_ret; split; [auto|]; unfold int_outcome; auto].
    cbn [fst]. destruct (ik_eqb k' k) eqn:EK.
    + apply wp_ret. assert (k' = k) as -> by (destruct k', k; try discriminate; reflexivity).
      split; [auto|]. unfold int_outcome. auto.
    + apply wp_fail. right. split; [assumption|]. split; [discriminate|]. split; [|reflexivity].
      intros Q. injection Q as ->. destruct k; discriminate.
  - intros e s4 [(R1 & ->) A4]. apply wp_bind.
    eapply wp_conseq; [apply (skip_identifier_total T), A4| |contradiction].
    intros o s5 _. apply wp_bind, wp_bind, wp_slice_before; [assumption|]. intros p _.
    apply wp_ret, wp_fail. left. split; [assumption|reflexivity].
Qed.

(** sign and base prefix *)
Lemma int_head base ds z : int_number base ds z -> exists c d t, ds = c :: t /\ hex_digit c d /\ (Z.of_N d < base)%Z.
Proof.
  induction 1 as [c d H L|s z c d H (c' & d' & t & -> & H1 & H2) D L|s z H (c' & d' & t & -> & H1 & H2)].
  - exists c, d, []. auto.
  - exists c', d', (t ++ [c]). auto.
  - exists c', d', (t ++ [c_us]). auto.
Qed.
Lemma base_bound p base : base_prefix p base -> (2 <= base <= 16)%Z.
Proof. destruct 1; lia. Qed.
Lemma dec_not_prefix ds z r x y : int_number 10 ds z -> starts_not (fun c => c =? y) r ->
  (forall d, d < 10 -> 48 + d <> y) -> y <> c_us -> starts_with [x; y] (ds ++ r) = false.
Proof.
  intros H D Y U. apply int_number_fold in H as (F & _ & c & t & -> & _). unfold starts_with. cbn [app strip_prefix].
  destruct (x =? c); [|reflexivity]. inversion F as [|? ? _ F']; subst. destruct t as [|c2 t]; cbn [app].
  - destruct r as [|c2 r]; [reflexivity|]. cbn in D. rewrite N.eqb_sym, D. reflexivity.
  - inversion F' as [|? ? F2 _]; subst. destruct F2 as [->|(d & H2 & L2)].
    + apply N.eqb_neq in U. rewrite U. reflexivity.
    + replace (y =? c2) with false; [reflexivity|]. destruct H2; specialize (Y d); lia.
Qed.

(** what follows sign and prefix, for any continuation *)
Section Signed.
Variables (T : str) (backup : str) (neg : bool).
Variable t : option ik.
Definition after_sign : M (ik * Z) :=
  b <- consume_str s_0b ;;
  if b then integer_body t neg 2 backup else
  o <- consume_str s_0o ;;
  if o then integer_body t neg 8 backup else
  x <- consume_str s_0x ;;
  if x then integer_body t neg 16 backup else
  integer_body t neg 10 backup.
Lemma after_sign_wp p base ds z r s Q R : base_prefix p base -> int_number base ds z ->
  inv T s -> rest s = p ++ ds ++ r -> starts_not (fun c => is_alpha c) r \/ (exists k r', r = ik_suffix k ++ r') ->
  (forall s', rest s' = ds ++ r -> adv T s s' -> wp (integer_body t neg base backup) Q R s') ->
  wp after_sign Q R s.
Proof.
  intros P H I Hs D K. unfold after_sign.
  assert (D1 : forall y, y = c_b \/ y = 111 \/ y = 120 -> starts_not (fun c => c =? y) r).
  { intros y Y. destruct D as [D|(k & r' & ->)].
    - destruct r; [exact Logic.I|]. cbn in *. unfold is_alpha in D. lia.
    - destruct (suffix_char k) as (c & t' & -> & C). cbn. lia. }
  assert (FALSE : forall q (k : bool -> M (ik * Z)) s', rest s' = rest s -> adv T s s' -> starts_with q (rest s) = false ->
     wp (k false) Q R s' -> wp (b <- consume_str q ;; k b) Q R s').
  { intros q k s' E' A' F HK. eapply wp_bind_ok; [|exact HK]. rewrite consume_str_eq, E'. unfold starts_with in F.
    destruct (strip_prefix q (rest s)); [discriminate|reflexivity]. }
  assert (TRUE : forall (k : bool -> M (ik * Z)), rest s = p ++ ds ++ r ->
     (forall s', rest s' = ds ++ r -> adv T s s' -> wp (k true) Q R s') -> wp (b <- consume_str p ;; k b) Q R s).
  { intros k Hp HK. apply wp_bind. eapply wp_reads; [apply reads_consume_str|exact I|exact Hp|exact Logic.I|]. auto. }
  destruct P.
  - assert (DN : forall y, y = c_b \/ y = 111 \/ y = 120 -> starts_with [48; y] (ds ++ r) = false).
    { intros y Y. apply (dec_not_prefix ds z r 48 y H (D1 y Y)); [intros d L| ]; lia. }
    cbn [app] in Hs.
    apply FALSE; [reflexivity|now apply adv_refl|rewrite Hs; apply (DN c_b); auto|].
    apply FALSE; [reflexivity|now apply adv_refl|rewrite Hs; apply (DN 111); auto|].
    apply FALSE; [reflexivity|now apply adv_refl|rewrite Hs; apply (DN 120); auto|].
    apply K; [assumption|now apply adv_refl].
  - apply TRUE; auto.
  - apply FALSE; [reflexivity|now apply adv_refl|rewrite Hs; reflexivity|]. apply TRUE; auto.
  - apply FALSE; [reflexivity|now apply adv_refl|rewrite Hs; reflexivity|].
    apply FALSE; [reflexivity|now apply adv_refl|rewrite Hs; reflexivity|]. apply TRUE; auto.
Qed.
End Signed.

Lemma integer_wp_gen t sg neg p base ds z r T s Q R : sign sg neg -> base_prefix p base -> int_number base ds z ->
  inv T s -> rest s = sg ++ p ++ ds ++ r -> starts_not (fun c => is_alpha c) r \/ (exists k r', r = ik_suffix k ++ r') ->
  (forall s', rest s' = ds ++ r -> adv T s s' -> wp (integer_body t neg base (rest s)) Q R s') ->
  wp (integer t) Q R s.
Proof.
  intros SG P H I Hs D K. unfold integer. eapply wp_bind_ok; [unfold src; reflexivity|]. cbv zeta.
  fold (after_sign (rest s) false t). fold (after_sign (rest s) true t).
  assert (HD : exists c t', p ++ ds ++ r = c :: t' /\ is_digit c = true).
  { destruct (int_head _ _ _ H) as (c & d & t' & -> & HX & L). destruct P; cbn [app]; eexists _, _; (split; [reflexivity|]);
    try reflexivity. unfold is_digit. destruct HX; lia. }
  destruct HD as (c & t' & E0 & DC). unfold is_digit in DC.
  destruct SG; cbn [app] in Hs.
  - eapply wp_bind_ok; [unfold peek_char_or_eof; rewrite Hs, E0; reflexivity|].
    replace (c =? c_plus) with false by lia. replace (c =? c_minus) with false by lia. replace (c =? c_b) with false by lia.
    eapply after_sign_wp; eauto.
  - eapply wp_bind_ok; [unfold peek_char_or_eof; rewrite Hs; reflexivity|]. cbn [N.eqb Pos.eqb].
    eapply wp_bind_ok; [unfold skip_next_char, try, next_char; rewrite Hs; reflexivity|].
    assert (A : adv T s (set_rest (p ++ ds ++ r) s)) by (apply adv_set_rest; [assumption|rewrite Hs; apply suf_cons]).
    refine (after_sign_wp T _ _ _ p base ds z r _ _ _ P H (adv_inv _ _ _ A) eq_refl D _). intros s' E' A'. apply K; [assumption|]. eapply adv_trans; eassumption.
  - eapply wp_bind_ok; [unfold peek_char_or_eof; rewrite Hs; reflexivity|]. cbn [N.eqb Pos.eqb].
    eapply wp_bind_ok; [unfold skip_next_char, try, next_char; rewrite Hs; reflexivity|].
    assert (A : adv T s (set_rest (p ++ ds ++ r) s)) by (apply adv_set_rest; [assumption|rewrite Hs; apply suf_cons]).
    refine (after_sign_wp T _ _ _ p base ds z r _ _ _ P H (adv_inv _ _ _ A) eq_refl D _). intros s' E' A'. apply K; [assumption|]. eapply adv_trans; eassumption.
Qed.
Lemma xid_not_alpha r : starts_not xid_continue r -> starts_not is_alpha r.
Proof.
  apply starts_not_weaken. intros c H. rewrite xid_continue_ascii; [now rewrite H|]. unfold is_alpha in H. lia.
Qed.

(** an integer literal without suffix *)
Lemma integer_wp t sg neg p base ds z r T s : sign sg neg -> base_prefix p base -> int_number base ds z ->
  inv T s -> rest s = (sg ++ p ++ ds) ++ r -> starts_not xid_continue r ->
  let v := signed_value neg z in
  wp (integer t) (int_outcome T s (int_target t neg) v (int_result t neg v) r)
     (int_refused (int_target t neg) v) s.
Proof.
  intros SG P H I Hs D v. rewrite <- !app_assoc in Hs.
  eapply integer_wp_gen; eauto; [left; now apply xid_not_alpha|]. intros s' E' A'.
  eapply wp_conseq; [eapply integer_body_wp; eauto; [apply (base_bound _ _ P)|apply (adv_inv _ _ _ A')]| |auto].
  intros a s2 (R1 & -> & R2 & A2). unfold int_outcome. repeat split; auto; try apply A2; eapply adv_trans; eassumption.
Qed.
(** an integer literal with the suffix of a type *)
Lemma integer_suffix_wp t sg neg p base ds z k r T s : sign sg neg -> base_prefix p base -> int_number base ds z ->
  int_supported k = true -> inv T s -> rest s = (sg ++ p ++ ds ++ ik_suffix k) ++ r -> starts_not xid_continue r ->
  let v := signed_value neg z in
  wp (integer t) (fun a s' => (t = None \/ t = Some k) /\ int_outcome T s k v (k, v) r a s')
     (fun e s' => int_refused k v e s' \/
                  in_range k v = true /\ t <> None /\ t <> Some k /\ e = EInvalidValueForType) s.
Proof.
  intros SG P H SK I Hs D v. rewrite <- !app_assoc in Hs.
  eapply integer_wp_gen; eauto. intros s' E' A'.
  eapply wp_conseq; [apply (integer_body_suffix_wp t neg base (rest s) ds z k T s' r (proj1 (base_bound _ _ P)) H SK (adv_inv _ _ _ A') E' (proj1 (proj2 A')) D)| |auto].
  intros a s2 (R0 & R1 & -> & R2 & A2). split; [assumption|]. unfold int_outcome. repeat split; auto; try apply A2; eapply adv_trans; eassumption.
Qed.
End Ints.
(** ** Floats *)
Section Floats.
Context {X : XidOk E} {FO : FloatOk E}.

Definition nodot (c : char) : bool := negb (c =? c_dot).
Definition plain_float_char (c : char) : bool := is_float_char c && negb (c =? c_us).
Definition dotsafe (t : str) : Prop := forall a b, t = a ++ c_dot :: b -> exists c b', b = c :: b' /\ c <> c_dot.
Lemma dotsafe_nodot t : forallb nodot t = true -> dotsafe t.
Proof.
  intros H a b ->. rewrite forallb_forall in H. specialize (H c_dot).
  assert (I : In c_dot (a ++ c_dot :: b)) by (apply in_or_app; right; left; reflexivity).
  apply H in I. discriminate.
Qed.
Lemma dotsafe_mid a b : forallb nodot a = true -> dotsafe b ->
  (match b with [] => False | c :: _ => c <> c_dot end) -> dotsafe (a ++ c_dot :: b).
Proof.
  induction a as [|x a IH]; intros F D NE p q Eq.
  - cbn [app] in Eq. destruct p as [|y p]; cbn [app] in Eq.
    + injection Eq as <-. destruct b as [|c b]; [contradiction|]. eauto.
    + injection Eq as <- Eq. eapply D; eassumption.
  - cbn [forallb] in F. apply andb_prop in F as [F1 F2]. destruct p as [|y p]; cbn [app] in Eq.
    + injection Eq as -> _. discriminate.
    + injection Eq as -> Eq. eapply IH; eauto.
Qed.
Lemma find_str_absent p s : (forall a b, s = a ++ b -> starts_with p b = false) -> find_str p s = None.
Proof.
  induction s as [|c s IH]; intros H.
  - assert (X0 := H [] [] eq_refl). cbn [find_str]. now rewrite X0.
  - assert (X0 := H [] (c :: s) eq_refl). cbn [find_str]. rewrite X0.
    rewrite IH; [reflexivity|]. intros a b ->. now apply (H (c :: a) b).
Qed.
Lemma dotsafe_len t : dotsafe t -> dotdot_len t = blen t.
Proof.
  intros D. unfold dotdot_len. rewrite find_str_absent; [reflexivity|]. intros a b ->.
  unfold starts_with, s_dotdot. destruct b as [|c b]; [reflexivity|]. cbn [strip_prefix].
  destruct (46 =? c) eqn:C; [|reflexivity]. apply N.eqb_eq in C as <-.
  destruct (D a b eq_refl) as (c & b' & -> & NC). replace (46 =? c) with false by lia. reflexivity.
Qed.
Lemma dotsafe_len_range t u : dotsafe t -> dotdot_len (t ++ s_dotdot ++ u) = blen t.
Proof.
  intros D. unfold dotdot_len. rewrite find_str_first; [reflexivity|]. intros a b -> NB.
  unfold starts_with, s_dotdot. destruct b as [|c b]; [contradiction|]. cbn [app strip_prefix].
  destruct (46 =? c) eqn:C; [|reflexivity]. apply N.eqb_eq in C as <-.
  destruct (D a b eq_refl) as (c & b' & -> & NC). cbn [app strip_prefix]. replace (46 =? c) with false by lia. reflexivity.
Qed.
Lemma dotsafe_end t r : dotsafe t -> forallb is_float_char t = true -> float_end r ->
  dotdot_len (takewhile is_float_char (t ++ r)) = blen t.
Proof.
  intros D F [N|[r' ->]].
  - rewrite takewhile_app; [now apply dotsafe_len|assumption|]. eapply starts_not_weaken; [|exact N]. intros c Hc. cbv beta. now rewrite Hc.
  - assert (TW : takewhile is_float_char (t ++ s_dotdot ++ r') = t ++ s_dotdot ++ takewhile is_float_char r').
    { clear D. induction t as [|c t IH]; [reflexivity|]. cbn [forallb] in F. apply andb_prop in F as [F1 F2].
      cbn [app takewhile]. rewrite F1. now rewrite IH. }
    rewrite TW. now apply dotsafe_len_range.
Qed.

(** the shape of numerals *)
Record float_shape (t : str) : Prop := FShape {
  fs_chars : forallb plain_float_char t = true;
  fs_dots : dotsafe t;
  fs_head : exists sg neg c t', t = sg ++ c :: t' /\ sign sg neg /\ is_digit c = true;
}.
Lemma digit_float c : is_digit c = true -> plain_float_char c = true.
Proof. unfold plain_float_char,  is_float_char, is_digit. lia. Qed.
Lemma digits_chars ds : forallb is_digit ds = true -> forallb plain_float_char ds = true.
Proof. apply forallb_weaken, digit_float. Qed.
Lemma digits_nodot ds : forallb is_digit ds = true -> forallb nodot ds = true.
Proof. apply forallb_weaken. unfold is_digit, nodot. intros c. lia. Qed.
Lemma sign_chars sg neg : sign sg neg -> forallb plain_float_char sg = true.
Proof. destruct 1; reflexivity. Qed.
Lemma sign_nodot sg neg : sign sg neg -> forallb nodot sg = true.
Proof. destruct 1; reflexivity. Qed.
Lemma exponent_facts ex : exponent ex -> forallb plain_float_char ex = true /\
  forallb nodot ex = true.
Proof.
  destruct 1 as [|e sg neg ds He SG NE F]; [auto|]. cbn [forallb]. rewrite !forallb_app.
  rewrite (sign_chars _ _ SG), (sign_nodot _ _ SG), (digits_chars _ F), (digits_nodot _ F).
  unfold nodot, plain_float_char, is_float_char, is_digit. split; lia.
Qed.
Lemma numeral_shape t : numeral t -> float_shape t.
Proof.
  destruct 1 as [sg neg ds fr ex SG NE F FR EX]. destruct (exponent_facts _ EX) as [EX1 EX2]. split.
  - rewrite !forallb_app, (sign_chars _ _ SG), (digits_chars _ F), EX1. destruct FR as [|fs NF FF]; [reflexivity|].
    cbn [forallb]. now rewrite (digits_chars _ FF).
  - destruct FR as [|fs NF FF].
    + apply dotsafe_nodot. rewrite !forallb_app, (sign_nodot _ _ SG), (digits_nodot _ F), EX2. reflexivity.
    + assert (Q : dotsafe ((sg ++ ds) ++ c_dot :: fs ++ ex)); [|rewrite <- app_assoc in Q; exact Q].
      apply dotsafe_mid.
      * now rewrite forallb_app, (sign_nodot _ _ SG), (digits_nodot _ F).
      * apply dotsafe_nodot. now rewrite forallb_app, (digits_nodot _ FF), EX2.
      * destruct fs as [|c fs]; [contradiction|]. cbn [app forallb] in *. unfold is_digit in FF. lia.
  - destruct ds as [|c ds]; [contradiction|]. exists sg, neg, c, (ds ++ fr ++ ex). cbn [forallb] in F.
    apply andb_prop in F as [F _]. auto.
Qed.

Lemma float_chars_plain s : forall i allow, forallb plain_float_char s = true ->
  float_chars i allow s = inl s.
Proof.
  induction s as [|c s IH]; intros i allow H; [reflexivity|]. cbn [forallb float_chars] in *.
  apply andb_prop in H as [H1 H2]. unfold plain_float_char in H1. replace (c =? c_us) with false by lia. now rewrite IH.
Qed.

(** a numeral is not one of the special values *)
Lemma head_no_lit t r w v32 v64 : In (w, v32, v64) float_literals -> float_shape t ->
  strip_prefix w (t ++ r) = None.
Proof.
  intros I [_ _ (sg & neg & c & t' & -> & SG & D)]. unfold is_digit in D.
  unfold float_literals in I.
  destruct SG; cbn [app]; cbn [In] in I;
  (destruct I as [I|[I|[I|[I|[I|[I|[]]]]]]]; injection I as <- <- <-; unfold s_inf, s_pinf, s_minf, s_NaN, s_pNaN, s_mNaN; cbn [strip_prefix];
    repeat match goal with |- context [?a =? c] => replace (a =? c) with false by lia end; reflexivity).
Qed.
Lemma float_lits_none t tt0 r s : rest s = t ++ r -> float_shape t -> float_lits tt0 float_literals s = Ok None s.
Proof.
  intros Hs SH.
  assert (G : forall l, (forall x, In x l -> In x float_literals) -> float_lits tt0 l s = Ok None s).
  { induction l as [|[[w v32] v64] l IH]; intros IN; [reflexivity|]. cbn [float_lits].
    assert (NO := head_no_lit t r w v32 v64 (IN _ (or_introl eq_refl)) SH).
    unfold bind at 1. rewrite consume_ident_false by (rewrite Hs; unfold ident_at; now rewrite NO).
    unfold bind, src. rewrite Hs, NO. apply IH. intros x Hx. apply IN. now right. }
  now apply G.
Qed.

Definition float_result (tt0 : option fk) (k : fk) (b : N) : fk * N := (k, b).

(** numerals without suffix *)
Lemma reads_numeral tt0 t a : float_shape t ->
  (forall s, float_parse tt0 t s = Ok a s) ->
  reads (float tt0) t float_end a.
Proof.
  intros SH HR T s r I Hs D. unfold float.
  eapply wp_bind_ok; [eapply float_lits_none; eassumption|].
  destruct SH as [CH DS HD].
  assert (FC : forallb is_float_char t = true) by (eapply forallb_weaken; [|exact CH]; intros c Hc; now apply andb_prop in Hc).
  eapply wp_bind_ok; [apply next_while_eq|]. eapply wp_bind_ok; [unfold src; reflexivity|].
  eapply wp_bind_ok; [rewrite btake_takewhile; reflexivity|]. cbv zeta.
  rewrite Hs, dotsafe_end by assumption.
  destruct HD as (sg & neg & c & t' & Et & SG & Dc).
  assert (HB : exists c0 t0, t = c0 :: t0 /\ c0 <> c_us).
  { rewrite Et. destruct SG; cbn [app]; eexists _, _; (split; [reflexivity|]); unfold is_digit in Dc; lia. }
  destruct HB as (c0 & t0 & E0 & NU).
  replace (Nat.eqb (blen t) 0) with false by (rewrite E0; assert (BP := blen_pos c0 t0); lia).
  eapply wp_bind_ok; [unfold check_char; rewrite Hs, E0; cbn [app]; replace (c0 =? c_us) with false by lia; reflexivity|].
  eapply wp_bind_ok; [rewrite btake_app; reflexivity|]. rewrite float_chars_plain by assumption.
  eapply wp_bind_ok; [rewrite bdrop_app; reflexivity|].
  assert (PL : wp (v <- float_parse tt0 t ;; advance_bytes (blen t) ;;; ret v)
                  (fun a' s' => a' = a /\ rest s' = r /\ adv T s s') (fun _ _ => False) s).
  { eapply wp_bind_ok; [apply HR|].
    apply wp_bind. eapply wp_reads; [apply reads_advance; reflexivity|exact I|exact Hs|exact Logic.I|]. intros s1 E1 A1.
    apply wp_ret. auto. }
  destruct r as [|c1 r]; [exact PL|]. replace (c1 =? 102) with false; [exact PL|].
  destruct D as [D|[r' D]].
  - cbn [starts_not] in D. apply orb_false_elim in D as [_ D]. destruct (N.eqb_spec c1 102) as [->|]; [|reflexivity].
    rewrite xid_continue_ascii in D by reflexivity. discriminate.
  - injection D as -> _. reflexivity.
Qed.

Lemma fk_suffix_xid k : forallb xid_continue (fk_suffix k) = true.
Proof. destruct k; cbn; rewrite !xid_continue_ascii by reflexivity; reflexivity. Qed.

(** numerals with suffix *)
Lemma reads_numeral_suffix tt0 t k b : float_shape t -> f_read k t = Some b ->
  (tt0 = None \/ tt0 = Some k) ->
  reads (float tt0) (t ++ fk_suffix k) (starts_not xid_continue) (k, b).
Proof.
  intros SH HR HT T s r I Hs D. unfold float. rewrite <- app_assoc in Hs.
  eapply wp_bind_ok; [eapply float_lits_none; eassumption|].
  destruct SH as [CH DS HD].
  assert (FC : forallb is_float_char t = true) by (eapply forallb_weaken; [|exact CH]; intros c Hc; now apply andb_prop in Hc).
  eapply wp_bind_ok; [apply next_while_eq|]. eapply wp_bind_ok; [unfold src; reflexivity|].
  eapply wp_bind_ok; [rewrite btake_takewhile; reflexivity|]. cbv zeta.
  rewrite Hs, takewhile_app by (first [assumption|destruct k; reflexivity]). rewrite dotsafe_len by assumption.
  destruct HD as (sg & neg & c & t' & Et & SG & Dc).
  assert (HB : exists c0 t0, t = c0 :: t0 /\ c0 <> c_us).
  { rewrite Et. destruct SG; cbn [app]; eexists _, _; (split; [reflexivity|]); unfold is_digit in Dc; lia. }
  destruct HB as (c0 & t0 & E0 & NU).
  replace (Nat.eqb (blen t) 0) with false by (rewrite E0; assert (BP := blen_pos c0 t0); lia).
  eapply wp_bind_ok; [unfold check_char; rewrite Hs, E0; cbn [app]; replace (c0 =? c_us) with false by lia; reflexivity|].
  eapply wp_bind_ok; [rewrite btake_app; reflexivity|]. rewrite float_chars_plain by assumption.
  eapply wp_bind_ok; [rewrite bdrop_app; reflexivity|].
  assert (ST : exists u, fk_suffix k ++ r = 102 :: u) by (destruct k; eexists; reflexivity).
  destruct ST as [u Eu]. rewrite Eu. cbn [N.eqb Pos.eqb].
  eapply wp_bind_ok; [unfold get_cursor_m, bind, get, ret; reflexivity|].
  apply wp_bind. eapply wp_reads; [apply reads_advance; reflexivity|exact I|exact Hs|exact Logic.I|]. intros s1 E1 A1.
  assert (TF : forall s', try_from_parsed_float tt0 (k, b) s' = Ok (k, b) s').
  { intros s'. unfold try_from_parsed_float. destruct HT as [-> | ->]; [reflexivity|]. cbn [fst]. destruct k; reflexivity. }
  assert (FIN : forall s2, rest s2 = r -> adv T s1 s2 ->
     wp (after <- src ;; slice_before (t ++ 102 :: u) after ;;; try_from_parsed_float tt0 (k, b))
        (fun a' s' => a' = (k, b) /\ rest s' = r /\ adv T s s') (fun _ _ => False) s2).
  { intros s2 E2 A2. eapply wp_bind_ok; [unfold src; reflexivity|]. rewrite E2.
    apply wp_bind, wp_slice_before.
    - rewrite <- Eu. exists (t ++ fk_suffix k). now rewrite <- app_assoc.
    - intros p _. eapply wp_ok; [apply TF|]. split; [reflexivity|]. split; [assumption|]. eapply adv_trans; eassumption. }
  destruct k.
  - eapply wp_bind_ok; [apply (consume_ident_true s_f32 s1 r); [exact E1|exact D]|]. rewrite HR.
    apply FIN; [reflexivity|]. apply adv_moved; [apply (adv_inv _ _ _ A1)|]. rewrite E1. apply suf_app.
  - eapply wp_bind_ok; [apply consume_ident_false; rewrite E1; reflexivity|].
    eapply wp_bind_ok; [apply (consume_ident_true s_f64 s1 r); [exact E1|exact D]|]. rewrite HR.
    apply FIN; [reflexivity|]. apply adv_moved; [apply (adv_inv _ _ _ A1)|]. rewrite E1. apply suf_app.
Qed.

(** the special values *)
Lemma special_lits_none w t f r : In (t, f F32, f F64) float_literals -> special_float t f ->
  strip_prefix w (t ++ r) = None -> ident_at w (t ++ r) = false.
Proof. intros _ _ H. unfold ident_at. now rewrite H. Qed.
Lemma read_special k t f : special_float t f -> f_read k t = Some (f k).
Proof. destruct 1; [apply read_inf|apply read_minf|apply read_nan|apply read_mnan]. Qed.

Ltac skip_lit Hs := cbn [float_lits]; eapply wp_bind_ok; [apply consume_ident_false; rewrite Hs; reflexivity|];
  cbv iota; eapply wp_bind_ok; [unfold src; reflexivity|]; rewrite Hs; cbn [app strip_prefix N.eqb Pos.eqb
     s_inf s_pinf s_minf s_NaN s_pNaN s_mNaN]; cbv iota.
Lemma reads_special_gen tt0 t f a0 : special_float t f -> (forall s, float_parse tt0 t s = Ok a0 s) ->
  reads (float tt0) t (starts_not xid_continue) a0.
Proof.
  intros SF FP T s r I Hs D. unfold float. apply wp_bind.
  assert (G : forall l, wp (b <- consume_ident t ;; if b then (x <- float_parse tt0 t ;; ret (Some x)) else l)
     (fun a s' => a = Some a0 /\ rest s' = r /\ adv T s s') (fun _ _ => False) s).
  { intros l. eapply wp_bind_ok; [apply (consume_ident_true t s r Hs D)|]. cbv iota.
    eapply wp_bind_ok; [apply FP|]. apply wp_ret.
    split; [reflexivity|]. split; [reflexivity|]. apply adv_moved; [assumption|]. rewrite Hs. apply suf_app. }
  assert (K : forall a s', a = Some a0 /\ rest s' = r /\ adv T s s' ->
     wp (match a with Some x => ret x | None => 
      raw <- next_chars_while_len is_float_char ;;
      r <- src ;;
      s <- of_slice (btake raw r) ;;
      let n := dotdot_len s in
      if Nat.eqb n 0 then fail EExpectedFloat
      else
        u <- check_char c_us ;;
        if u then fail EUnderscoreAtBeginning
        else
          s <- of_slice (btake n r) ;;
          match float_chars 0 false s with
          | inr i => advance_bytes i ;;; fail EFloatUnderscore
          | inl f =>
              t' <- of_slice (bdrop n r) ;;
              let plain :=
                v <- float_parse tt0 f ;; advance_bytes n ;;; ret v in
              match t' with
              | c :: _ =>
                  if c =? 102 then
                    backup <- get_cursor_m ;;
                    advance_bytes n ;;;
                    let finish k0 :=
                      match f_read k0 f with
                      | None => set_cursor_m backup ;;; fail EExpectedFloat
                      | Some v =>
                          after <- src ;;
                          slice_before r after ;;;
                          try_from_parsed_float tt0 (k0, v)
                      end in
                    b32 <- consume_ident s_f32 ;;
                    if b32 then finish F32
                    else
                      b64 <- consume_ident s_f64 ;;
                      if b64 then finish F64
                      else set_cursor_m backup ;;; plain
                  else plain
              | [] => plain
              end
          end end) (fun a' s'' => a' = a0 /\ rest s'' = r /\ adv T s s'') (fun _ _ => False) s').
  { intros a s' (-> & H). apply wp_ret. auto. }
  destruct SF; unfold float_literals.
  - cbn [float_lits]. eapply wp_conseq; [apply G|exact K|auto].
  - skip_lit Hs. skip_lit Hs. cbn [float_lits]. eapply wp_conseq; [apply G|exact K|auto].
  - do 3 skip_lit Hs. cbn [float_lits]. eapply wp_conseq; [apply G|exact K|auto].
  - do 5 skip_lit Hs. cbn [float_lits]. eapply wp_conseq; [apply G|exact K|auto].
Qed.

Lemma reads_special k t f : special_float t f -> reads (float (Some k)) t (starts_not xid_continue) (k, f k).
Proof.
  intros SF. apply reads_special_gen with f; [assumption|]. intros s. unfold float_parse.
  now rewrite (read_special k t f SF).
Qed.

Lemma float_end_xid r : float_end r -> starts_not xid_continue r.
Proof.
  intros [D|[r' ->]].
  - eapply starts_not_weaken; [|exact D]. intros c Hc. cbv beta. rewrite Hc. apply orb_true_r.
  - cbn. now rewrite xid_continue_ascii.
Qed.

Lemma reads_special_suffix tt0 k t f : special_float t f -> (tt0 = None \/ tt0 = Some k) ->
  reads (float tt0) (t ++ fk_suffix k) (starts_not xid_continue) (k, f k).
Proof.
  intros SF HT T s r I Hs D. unfold float.
  assert (TF : forall s', try_from_parsed_float tt0 (k, f k) s' = Ok (k, f k) s').
  { intros s'. unfold try_from_parsed_float. destruct HT as [-> | ->]; [reflexivity|]. cbn [fst]. destruct k; reflexivity. }
  assert (Hs' : rest s = t ++ fk_suffix k ++ r) by (now rewrite app_assoc).
  assert (NX : next_is_xid_continue r = false) by (destruct r; [reflexivity|exact D]).
  assert (ND : ident_at t (rest s) = false).
  { unfold ident_at. rewrite Hs', strip_prefix_app. destruct k; cbn; rewrite xid_continue_ascii by reflexivity; reflexivity. }
  assert (LB : blen (t ++ fk_suffix k) = (blen t + 3)%nat) by (rewrite blen_app; destruct k; reflexivity).
  assert (FL : exists s', float_lits tt0 float_literals s = Ok (Some (k, f k)) s' /\ rest s' = r /\ adv T s s').
  { assert (G : forall l, exists s',
      (b <- consume_ident t ;;
       if b then (x <- float_parse tt0 t ;; ret (Some x)) else
        r <- src ;;
        match strip_prefix t r with
        | None => l
        | Some sfx =>
            let with_suffix k v (next : M (option (fk * N))) :=
              match strip_prefix (match k with F32 => s_f32 | F64 => s_f64 end) sfx with
              | Some post =>
                  if next_is_xid_continue post then next
                  else
                    of_slice (btake (blen t + 3) r) ;;;
                    advance_bytes (blen t + 3) ;;;
                    x <- try_from_parsed_float tt0 (k, v) ;;
                    ret (Some x)
              | None => next
              end in
            with_suffix F32 (f F32) (with_suffix F64 (f F64) l)
        end) s = Ok (Some (k, f k)) s' /\ rest s' = r /\ adv T s s').
    { intros l. unfold bind at 1. rewrite consume_ident_false by assumption. cbv iota.
      unfold bind at 1, src. rewrite Hs', strip_prefix_app. cbv zeta.
      assert (RA : forall n, n = (blen t + 3)%nat -> exists s', advance_bytes n s = Ok tt s' /\ rest s' = r /\ adv T s s').
      { intros n ->. assert (R := reads_advance (t ++ fk_suffix k) _ LB T s r I Hs Logic.I).
        Transparent wp. unfold wp in R. Opaque wp. destruct (advance_bytes (blen t + 3) s) as [[] s'|? ?| |]; try contradiction.
        exists s'. split; [reflexivity|]. tauto. }
      destruct (RA _ eq_refl) as (s' & HA & HB). exists s'. split; [|exact HB].
      assert (BT : btake (blen t + 3) (t ++ fk_suffix k ++ r) = Some (t ++ fk_suffix k)).
      { rewrite <- LB, app_assoc. apply btake_app. }
      destruct k.
      - rewrite strip_prefix_app, NX. rewrite BT. unfold bind, of_slice, ret. rewrite HA. rewrite TF. reflexivity.
      - assert (strip_prefix s_f32 (fk_suffix F64 ++ r) = None) as -> by reflexivity.
        rewrite strip_prefix_app, NX. rewrite BT. unfold bind, of_slice, ret. rewrite HA. rewrite TF. reflexivity. }
    assert (SK : forall w v32 v64 l, strip_prefix w (rest s) = None ->
      float_lits tt0 ((w, v32, v64) :: l) s = float_lits tt0 l s).
    { intros w v32 v64 l H. cbn [float_lits]. unfold bind at 1. rewrite consume_ident_false by (unfold ident_at; now rewrite H).
      unfold bind, src. now rewrite H. }
    destruct SF; unfold float_literals.
    - apply G.
    - rewrite !SK by (rewrite Hs'; reflexivity). apply G.
    - rewrite !SK by (rewrite Hs'; reflexivity). apply G.
    - rewrite !SK by (rewrite Hs'; reflexivity). apply G. }
  destruct FL as (s' & HF & HR & HA). eapply wp_bind_ok; [exact HF|]. apply wp_ret. auto.
Qed.

Lemma reads_float k sfx t b : float_lit k sfx t b -> reads (float (Some k)) t float_end (k, b).
Proof.
  destruct 1 as [t b NM R|t f SF|t b FL].
  - apply reads_numeral; [now apply numeral_shape|]. intros s. unfold float_parse. now rewrite R.
  - eapply reads_conseq; [apply float_end_xid|now apply reads_special].
  - inversion FL as [? ? NM R|? ? SF|]; subst.
    + eapply reads_conseq; [apply float_end_xid|apply reads_numeral_suffix; [now apply numeral_shape|assumption|now right]].
    + eapply reads_conseq; [apply float_end_xid|apply reads_special_suffix; [assumption|now right]].
Qed.
Lemma reads_float_suffix k t b : float_lit k true t b -> reads (float None) t (starts_not xid_continue) (k, b).
Proof.
  inversion 1 as [| |t' ? FL]; subst. inversion FL as [? ? NM R|? ? SF|]; subst.
  - apply reads_numeral_suffix; [now apply numeral_shape|assumption|now left].
  - apply reads_special_suffix; [assumption|now left].
Qed.
End Floats.
End WithEnv.
