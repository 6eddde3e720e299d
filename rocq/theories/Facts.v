(** Lemmas on text, slices and UTF-8. *)
From Coq Require Import String Ascii NArith ZArith Lia Bool List.
From Coq Require Import ZifyBool ZifyNat ZifyN.
From Verif Require Import Base.
Import ListNotations.
Open Scope N_scope.
Open Scope list_scope.

Lemma len_utf8_pos c : (1 <= len_utf8 c <= 4)%nat.
Proof. unfold len_utf8. repeat destruct (_ <? _); lia. Qed.

Lemma blen_app a b : blen (a ++ b) = (blen a + blen b)%nat.
Proof. induction a; cbn [blen app]; [reflexivity|]. rewrite IHa. lia. Qed.

Lemma blen_length s : (length s <= blen s <= 4 * length s)%nat.
Proof. induction s; cbn [blen length]; [lia|]. pose proof (len_utf8_pos a). lia. Qed.

Lemma blen_nil s : blen s = 0%nat -> s = [].
Proof. destruct s; [reflexivity|]. pose proof (blen_length (c :: s)). cbn in *. lia. Qed.

Lemma bdrop_0 s : bdrop 0 s = Some s.
Proof. destruct s; reflexivity. Qed.
Lemma btake_0 s : btake 0 s = Some [].
Proof. destruct s; reflexivity. Qed.

Lemma bdrop_app_plus a b n : bdrop (blen a + n) (a ++ b) = bdrop n b.
Proof.
  induction a as [|c a IH]; [reflexivity|].
  cbn [blen app bdrop]. pose proof (len_utf8_pos c).
  destruct (len_utf8 c + blen a + n)%nat eqn:E; [lia|]. rewrite <- E.
  replace (Nat.leb _ _) with true by lia.
  replace (len_utf8 c + blen a + n - len_utf8 c)%nat with (blen a + n)%nat by lia. exact IH.
Qed.
Lemma bdrop_app a b : bdrop (blen a) (a ++ b) = Some b.
Proof. rewrite <- (Nat.add_0_r (blen a)), bdrop_app_plus. apply bdrop_0. Qed.
Lemma bdrop_all a : bdrop (blen a) a = Some [].
Proof. rewrite <- (app_nil_r a) at 2. apply bdrop_app. Qed.

Lemma btake_app_plus a b n : btake (blen a + n) (a ++ b) = option_map (app a) (btake n b).
Proof.
  induction a as [|c a IH]; cbn [blen app].
  { cbn. destruct (btake n b); reflexivity. }
  pose proof (len_utf8_pos c). cbn [btake].
  destruct (len_utf8 c + blen a + n)%nat eqn:E; [lia|]. rewrite <- E.
  replace (Nat.leb _ _) with true by lia.
  replace (len_utf8 c + blen a + n - len_utf8 c)%nat with (blen a + n)%nat by lia.
  rewrite IH. destruct (btake n b); reflexivity.
Qed.
Lemma btake_app a b : btake (blen a) (a ++ b) = Some a.
Proof.
  rewrite <- (Nat.add_0_r (blen a)), btake_app_plus, btake_0. cbn. now rewrite app_nil_r.
Qed.

Lemma bdrop_split n s r : bdrop n s = Some r -> exists p, s = p ++ r /\ blen p = n.
Proof.
  revert n; induction s as [|c s IH]; intros n H; destruct n; cbn in H; try discriminate.
  - injection H as <-. now exists [].
  - injection H as <-. now exists [].
  - change (match len_utf8 c with O => true | S m' => Nat.leb m' n end)
      with (Nat.leb (len_utf8 c) (S n)) in H.
    destruct (Nat.leb _ _) eqn:E in H; [|discriminate].
    apply IH in H as (p & -> & Hp). exists (c :: p). split; [reflexivity|]. cbn [blen].
    pose proof (len_utf8_pos c). destruct (len_utf8 c); lia.
Qed.

(** ** Suffixes *)

Definition suf (a b : str) : Prop := exists p, b = p ++ a.

Lemma suf_refl a : suf a a.
Proof. now exists []. Qed.
Lemma suf_trans a b c : suf a b -> suf b c -> suf a c.
Proof. intros [p ->] [q ->]. exists (q ++ p). now rewrite app_assoc. Qed.
Lemma suf_app p a : suf a (p ++ a).
Proof. now exists p. Qed.
Lemma suf_cons c a : suf a (c :: a).
Proof. now exists [c]. Qed.
Lemma suf_nil a : suf [] a.
Proof. exists a. now rewrite app_nil_r. Qed.
Lemma suf_blen a b : suf a b -> (blen a <= blen b)%nat.
Proof. intros [p ->]. rewrite blen_app. lia. Qed.
Lemma suf_length a b : suf a b -> (length a <= length b)%nat.
Proof. intros [p ->]. rewrite app_length. lia. Qed.
Lemma suf_bdrop n a b : bdrop n a = Some b -> suf b a.
Proof. intros (p & -> & _)%bdrop_split. apply suf_app. Qed.
Lemma suf_eq a b : suf a b -> (length b <= length a)%nat -> a = b.
Proof. intros [p ->]. rewrite app_length. destruct p; [reflexivity|cbn; lia]. Qed.
Lemma suf_tl c a b : suf (c :: a) b -> suf a b.
Proof. intros [p ->]. exists (p ++ [c]). now rewrite <- app_assoc. Qed.
(** two suffixes of the same text are comparable *)
Lemma suf_total a b t : suf a t -> suf b t -> (length a <= length b)%nat -> suf a b.
Proof.
  intros [p ->] [q H]. revert q H. induction p as [|x p IH]; intros q H L.
  - cbn in H. subst a. rewrite app_length in L. destruct q; [apply suf_refl|cbn in L; lia].
  - destruct q as [|y q]; cbn in H.
    + subst b. apply (suf_app (x :: p)).
    + injection H as -> H. now apply IH with q.
Qed.
Lemma suf_blen_total a b t : suf a t -> suf b t -> (blen a <= blen b)%nat -> suf a b.
Proof.
  intros Ha Hb L. destruct (Nat.le_ge_cases (length a) (length b)) as [H|H].
  - now apply suf_total with t.
  - assert (S := suf_total b a t Hb Ha H). destruct S as [[|c p] ->]; [apply suf_refl|].
    cbn [app blen] in L. rewrite blen_app in L. pose proof (len_utf8_pos c). lia.
Qed.

(** ** Scanning *)

Lemma take_drop_while p s : s = takewhile p s ++ dropwhile p s.
Proof. induction s; cbn; [reflexivity|]. destruct (p a); cbn; congruence. Qed.
Lemma bdrop_takewhile p s : bdrop (blen (takewhile p s)) s = Some (dropwhile p s).
Proof. rewrite (take_drop_while p s) at 2. apply bdrop_app. Qed.
Lemma btake_takewhile p s : btake (blen (takewhile p s)) s = Some (takewhile p s).
Proof. rewrite (take_drop_while p s) at 2. apply btake_app. Qed.
Lemma suf_dropwhile p s : suf (dropwhile p s) s.
Proof. exists (takewhile p s). apply take_drop_while. Qed.
Lemma takewhile_all p s : forallb p (takewhile p s) = true.
Proof. induction s; cbn; [reflexivity|]. destruct (p a) eqn:E; cbn; [|reflexivity]. now rewrite E. Qed.
Definition starts_not (p : char -> bool) (s : str) : Prop :=
  match s with [] => True | c :: _ => p c = false end.
Lemma dropwhile_not p s : starts_not p (dropwhile p s).
Proof. induction s; cbn; [exact I|]. destruct (p a) eqn:E; [exact IHs|exact E]. Qed.
Lemma takewhile_app p a r : forallb p a = true -> starts_not p r -> takewhile p (a ++ r) = a.
Proof.
  intros H N. induction a as [|c a IH]; cbn in *.
  - destruct r; [reflexivity|]. cbn in *. now rewrite N.
  - apply andb_true_iff in H as [-> H]. now rewrite IH.
Qed.
Lemma dropwhile_app p a r : forallb p a = true -> starts_not p r -> dropwhile p (a ++ r) = r.
Proof.
  intros H N. induction a as [|c a IH]; cbn in *.
  - destruct r; [reflexivity|]. cbn in *. now rewrite N.
  - apply andb_true_iff in H as [-> H]. now rewrite IH.
Qed.
Lemma takewhile_none p s : starts_not p s -> takewhile p s = [].
Proof. destruct s; cbn; [reflexivity|]. now intros ->. Qed.

Lemma strip_prefix_app p r : strip_prefix p (p ++ r) = Some r.
Proof. induction p; cbn; [reflexivity|]. now rewrite N.eqb_refl. Qed.
Lemma strip_prefix_some p s r : strip_prefix p s = Some r -> s = p ++ r.
Proof.
  revert s; induction p as [|a p IH]; intros s H; cbn in *; [now injection H as ->|].
  destruct s as [|c s]; [discriminate|]. destruct (a =? c) eqn:E; [|discriminate].
  apply N.eqb_eq in E as ->. f_equal. now apply IH.
Qed.
Lemma starts_with_app p r : starts_with p (p ++ r) = true.
Proof. unfold starts_with. now rewrite strip_prefix_app. Qed.
Lemma starts_with_true p s : starts_with p s = true -> exists r, s = p ++ r.
Proof.
  unfold starts_with. destruct (strip_prefix p s) eqn:E; [|discriminate].
  intros _. exists s0. now apply strip_prefix_some.
Qed.
Lemma starts_with_iff p s : starts_with p s = true <-> exists r, s = p ++ r.
Proof. split; [apply starts_with_true|]. intros [r ->]. apply starts_with_app. Qed.

Lemma str_eqb_eq a b : str_eqb a b = true <-> a = b.
Proof.
  revert b; induction a as [|x a IH]; intros [|y b]; cbn; try (split; congruence).
  rewrite andb_true_iff, N.eqb_eq, IH. split; [intros [-> ->]; reflexivity|].
  intros H; injection H as -> ->; auto.
Qed.
Lemma str_eqb_refl a : str_eqb a a = true.
Proof. now apply str_eqb_eq. Qed.
Lemma str_eqb_neq a b : str_eqb a b = false <-> a <> b.
Proof.
  rewrite <- not_true_iff_false. now rewrite str_eqb_eq.
Qed.

Lemma find_char_some p s a b :
  find_char p s = Some (a, b) ->
  s = a ++ b /\ forallb (fun c => negb (p c)) a = true /\
  (exists c b', b = c :: b' /\ p c = true).
Proof.
  revert a b; induction s as [|c s IH]; intros a b H; cbn in H; [discriminate|].
  destruct (p c) eqn:E.
  - injection H as <- <-. split; [reflexivity|]. split; [reflexivity|]. eauto.
  - destruct (find_char p s) as [[x y]|] eqn:F; [|discriminate]. injection H as <- <-.
    destruct (IH _ _ eq_refl) as (-> & A & B). split; [reflexivity|].
    split; [cbn; now rewrite E|exact B].
Qed.
Lemma find_char_none p s : find_char p s = None -> forallb (fun c => negb (p c)) s = true.
Proof.
  induction s as [|c s IH]; intros H; cbn in *; [reflexivity|].
  destruct (p c); [discriminate|]. destruct (find_char p s) as [[]|]; [discriminate|]. now apply IH.
Qed.
Lemma find_char_app p a c r :
  forallb (fun c => negb (p c)) a = true -> p c = true ->
  find_char p (a ++ c :: r) = Some (a, c :: r).
Proof.
  intros H N. induction a as [|x a IH]; cbn in *; [now rewrite N|].
  apply andb_true_iff in H as [H1 H]. apply negb_true_iff in H1 as ->. now rewrite IH.
Qed.
Lemma find_char_absent p a : forallb (fun c => negb (p c)) a = true -> find_char p a = None.
Proof.
  induction a as [|x a IH]; cbn; [reflexivity|]. intros [H1 H]%andb_true_iff.
  apply negb_true_iff in H1 as ->. now rewrite IH.
Qed.

Lemma find_str_some p s a b : find_str p s = Some (a, b) -> s = a ++ b /\ exists r, b = p ++ r.
Proof.
  revert a b; induction s as [|c s IH]; intros a b H; cbn in H.
  - destruct (starts_with p []) eqn:E; [|discriminate]. injection H as <- <-.
    split; [reflexivity|]. now apply starts_with_true.
  - destruct (starts_with p (c :: s)) eqn:E.
    + injection H as <- <-. split; [reflexivity|]. now apply starts_with_true.
    + destruct (find_str p s) as [[x y]|] eqn:F; [|discriminate]. injection H as <- <-.
      destruct (IH _ _ eq_refl) as (-> & B). now split.
Qed.

(** ** UTF-8 *)

Definition is_byte (b : byte) : bool := b <? 256.

Lemma dec_enc_char c r : is_scalar c = true -> dec_char (enc_char c ++ r) = Some (c, r).
Proof.
  unfold is_scalar, enc_char. intros H.
  destruct (c <? 128) eqn:E1; [cbn; now rewrite E1|].
  destruct (c <? 2048) eqn:E2.
  { cbn [app dec_char].
    assert (B : 2 <= c / 64 < 32).
    { split; [apply N.div_le_lower_bound; lia|apply N.div_lt_upper_bound; lia]. }
    pose proof (N.mod_lt c 64 ltac:(lia)).
    replace (192 + c / 64 <? 128) with false by lia.
    replace ((194 <=? 192 + c / 64) && (192 + c / 64 <? 224)) with true by lia.
    replace (is_cont (128 + c mod 64)) with true by (unfold is_cont; lia).
    repeat f_equal. pose proof (N.div_mod c 64 ltac:(lia)). lia. }
  destruct (c <? 65536) eqn:E3.
  { cbn [app dec_char].
    assert (B : c / 4096 < 16) by (apply N.div_lt_upper_bound; lia).
    pose proof (N.mod_lt c 64 ltac:(lia)).
    pose proof (N.mod_lt (c / 64) 64 ltac:(lia)).
    replace (224 + c / 4096 <? 128) with false by lia.
    replace ((194 <=? 224 + c / 4096) && (224 + c / 4096 <? 224)) with false by lia.
    replace ((224 <=? 224 + c / 4096) && (224 + c / 4096 <? 240)) with true by lia.
    assert (D : (224 + c / 4096 - 224) * 4096 + (128 + (c / 64) mod 64 - 128) * 64
                + (128 + c mod 64 - 128) = c).
    { pose proof (N.div_mod c 64 ltac:(lia)). pose proof (N.div_mod (c / 64) 64 ltac:(lia)) as D.
      rewrite N.div_div in D by lia. change (64 * 64) with 4096 in D. lia. }
    rewrite D. unfold is_cont, is_scalar. rewrite H.
    replace (_ && _) with true by lia. reflexivity. }
  cbn [app dec_char].
  assert (B : c / 262144 < 5) by (apply N.div_lt_upper_bound; lia).
  pose proof (N.mod_lt c 64 ltac:(lia)).
  pose proof (N.mod_lt (c / 64) 64 ltac:(lia)).
  pose proof (N.mod_lt (c / 4096) 64 ltac:(lia)).
  replace (240 + c / 262144 <? 128) with false by lia.
  replace ((194 <=? 240 + c / 262144) && (240 + c / 262144 <? 224)) with false by lia.
  replace ((224 <=? 240 + c / 262144) && (240 + c / 262144 <? 240)) with false by lia.
  replace ((240 <=? 240 + c / 262144) && (240 + c / 262144 <? 245)) with true by lia.
  assert (D : (240 + c / 262144 - 240) * 262144 + (128 + (c / 4096) mod 64 - 128) * 4096
              + (128 + (c / 64) mod 64 - 128) * 64 + (128 + c mod 64 - 128) = c).
  { pose proof (N.div_mod c 64 ltac:(lia)). pose proof (N.div_mod (c / 64) 64 ltac:(lia)) as D.
    rewrite N.div_div in D by lia. change (64 * 64) with 4096 in D.
    pose proof (N.div_mod (c / 4096) 64 ltac:(lia)) as D'.
    rewrite N.div_div in D' by lia. change (4096 * 64) with 262144 in D'. lia. }
  rewrite D. unfold is_cont, is_scalar. rewrite H.
  replace (_ && _) with true by lia. reflexivity.
Qed.

Lemma enc_char_pos c : (1 <= length (enc_char c))%nat.
Proof. unfold enc_char. repeat destruct (_ <? _); cbn; lia. Qed.
Lemma enc_char_len c : length (enc_char c) = len_utf8 c.
Proof. unfold enc_char, len_utf8. repeat destruct (_ <? _); reflexivity. Qed.
Lemma enc_len s : length (enc s) = blen s.
Proof.
  unfold enc. induction s; cbn; [reflexivity|]. now rewrite app_length, enc_char_len, IHs.
Qed.
Lemma enc_app a b : enc (a ++ b) = enc a ++ enc b.
Proof. apply flat_map_app. Qed.

Lemma dec_aux_enc s fuel r : wf_str s -> (length s <= fuel)%nat -> dec_char r = None ->
  dec_aux fuel (enc s ++ r) = (s, r).
Proof.
  revert fuel; induction s as [|c s IH]; intros fuel W L N.
  - cbn. destruct fuel; cbn; [reflexivity|]. now rewrite N.
  - destruct fuel; [cbn in L; lia|]. inversion W; subst.
    cbn [enc flat_map]. rewrite <- app_assoc. cbn [dec_aux]. rewrite dec_enc_char by assumption.
    change (flat_map enc_char s) with (enc s). rewrite IH; auto. cbn in L. lia.
Qed.
Lemma from_utf8_enc s : wf_str s -> from_utf8 (enc s) = Some s.
Proof.
  intros W. unfold from_utf8, dec_prefix.
  rewrite <- (app_nil_r (enc s)) at 2. rewrite dec_aux_enc; auto.
  rewrite enc_len. apply blen_length.
Qed.

Lemma dec_char_spec bs c r : dec_char bs = Some (c, r) -> is_scalar c = true /\ bs = enc_char c ++ r.
Proof.
  destruct bs as [|b0 r0]; [discriminate|]. cbn [dec_char].
  destruct (b0 <? 128) eqn:E0.
  { intros H; injection H as -> ->. unfold is_scalar, enc_char. rewrite E0.
    split; [lia|reflexivity]. }
  destruct ((194 <=? b0) && (b0 <? 224)) eqn:E1.
  { destruct r0 as [|b1 r1]; [discriminate|]. unfold is_cont.
    destruct ((128 <=? b1) && (b1 <? 192)) eqn:C1; [|discriminate].
    intros H; injection H as <- <-. unfold is_scalar, enc_char.
    replace (_ <? 128) with false by lia. replace (_ <? 2048) with true by lia.
    split; [lia|]. cbn [app].
    rewrite <- (N.div_unique _ 64 (b0 - 192) (b1 - 128)) by lia.
    rewrite <- (N.mod_unique _ 64 (b0 - 192) (b1 - 128)) by lia.
    repeat f_equal; lia. }
  destruct ((224 <=? b0) && (b0 <? 240)) eqn:E2.
  { destruct r0 as [|b1 [|b2 r2]]; try discriminate. unfold is_cont.
    set (c' := (b0 - 224) * 4096 + (b1 - 128) * 64 + (b2 - 128)).
    match goal with |- (if ?b then _ else _) = _ -> _ => destruct b eqn:C end; [|discriminate]. intros H; injection H as <- <-.
    apply andb_true_iff in C as [C S]. split; [exact S|].
    unfold enc_char. replace (c' <? 128) with false by lia. replace (c' <? 2048) with false by lia.
    replace (c' <? 65536) with true by lia.
    assert (D1 : c' / 64 = (b0 - 224) * 64 + (b1 - 128)).
    { symmetry. apply N.div_unique with (b2 - 128); lia. }
    assert (D2 : c' / 4096 = b0 - 224).
    { symmetry. apply N.div_unique with ((b1 - 128) * 64 + (b2 - 128)); lia. }
    assert (D3 : c' mod 64 = b2 - 128).
    { symmetry. apply N.mod_unique with ((b0 - 224) * 64 + (b1 - 128)); lia. }
    assert (D4 : (c' / 64) mod 64 = b1 - 128).
    { rewrite D1. symmetry. apply N.mod_unique with (b0 - 224); lia. }
    rewrite D2, D3, D4. cbn [app]. repeat f_equal; lia. }
  destruct ((240 <=? b0) && (b0 <? 245)) eqn:E3; [|discriminate].
  destruct r0 as [|b1 [|b2 [|b3 r3]]]; try discriminate. unfold is_cont.
  set (c' := (b0 - 240) * 262144 + (b1 - 128) * 4096 + (b2 - 128) * 64 + (b3 - 128)).
  match goal with |- (if ?b then _ else _) = _ -> _ => destruct b eqn:C end; [|discriminate]. intros H; injection H as <- <-.
  apply andb_true_iff in C as [C S]. split; [exact S|].
  unfold enc_char. replace (c' <? 128) with false by lia. replace (c' <? 2048) with false by lia.
  replace (c' <? 65536) with false by lia.
  assert (D1 : c' / 64 = (b0 - 240) * 4096 + (b1 - 128) * 64 + (b2 - 128)).
  { symmetry. apply N.div_unique with (b3 - 128); lia. }
  assert (D2 : c' / 4096 = (b0 - 240) * 64 + (b1 - 128)).
  { symmetry. apply N.div_unique with ((b2 - 128) * 64 + (b3 - 128)); lia. }
  assert (D2' : c' / 262144 = b0 - 240).
  { symmetry. apply N.div_unique with ((b1 - 128) * 4096 + (b2 - 128) * 64 + (b3 - 128)); lia. }
  assert (D3 : c' mod 64 = b3 - 128).
  { symmetry. apply N.mod_unique with ((b0 - 240) * 4096 + (b1 - 128) * 64 + (b2 - 128)); lia. }
  assert (D4 : (c' / 64) mod 64 = b2 - 128).
  { rewrite D1. symmetry. apply N.mod_unique with ((b0 - 240) * 64 + (b1 - 128)); lia. }
  assert (D5 : (c' / 4096) mod 64 = b1 - 128).
  { rewrite D2. symmetry. apply N.mod_unique with (b0 - 240); lia. }
  rewrite D2', D3, D4, D5. cbn [app]. repeat f_equal; lia.
Qed.

Lemma dec_aux_spec fuel bs s q : dec_aux fuel bs = (s, q) -> wf_str s /\ bs = enc s ++ q.
Proof.
  revert bs s q; induction fuel as [|f IH]; intros bs s q H; cbn in H.
  - injection H as <- <-. split; [constructor|reflexivity].
  - destruct (dec_char bs) as [[c r]|] eqn:D.
    + destruct (dec_aux f r) as [s' q'] eqn:A. injection H as <- <-.
      apply IH in A as [W ->]. apply dec_char_spec in D as [S ->].
      split; [now constructor|]. cbn. now rewrite app_assoc.
    + injection H as <- <-. split; [constructor|reflexivity].
Qed.
Lemma from_utf8_spec bs s : from_utf8 bs = Some s -> wf_str s /\ bs = enc s.
Proof.
  unfold from_utf8, dec_prefix. destruct (dec_aux _ bs) as [t q] eqn:A.
  apply dec_aux_spec in A as [W ->]. destruct q; [|discriminate].
  intros H; injection H as ->. split; [assumption|]. apply app_nil_r.
Qed.

Lemma wf_app a b : wf_str (a ++ b) <-> wf_str a /\ wf_str b.
Proof. apply Forall_app. Qed.
