(** skip_ws skips exactly the layout at the cursor. *)
From Coq Require Import String Ascii NArith ZArith Lia Bool List.
From Coq Require Import ZifyBool ZifyNat ZifyN.
From Verif Require Import Base Facts Parse Wp LexSafe Layout.
Import ListNotations.
Open Scope N_scope.
Open Scope list_scope.
Open Scope m_scope.

(** [length] at [str] and at [list N] is the same number *)
Ltac slia := unfold str, char in *; lia.

Definition ordinary (c : char) : bool := negb ((c =? c_slash) || (c =? c_star)).

(** what follows the ordinary characters of a comment body *)
Lemma comment_body_split b : comment_body b ->
  let p := takewhile ordinary b in let q := dropwhile ordinary b in
  b = p ++ q /\
  ((exists x y, q = c_slash :: c_star :: x ++ y /\ comment_body x /\ comment_body y) \/
   q = [c_star; c_slash] \/
   (exists c b', q = c :: b' /\ comment_body b' /\
      starts_with [c_slash; c_star] (c :: b') = false /\
      starts_with [c_star; c_slash] (c :: b') = false)).
Proof.
  induction 1 as [|a b HA IHA HB IHB|c b HB IH N1 N2]; cbv zeta.
  - cbn. split; [reflexivity|]. right; left. reflexivity.
  - cbn. split; [reflexivity|]. left. exists a, b. auto.
  - cbv zeta in IH. destruct IH as [E C]. cbn [takewhile dropwhile].
    destruct (ordinary c) eqn:O.
    + split; [cbn; now f_equal|]. exact C.
    + split; [reflexivity|]. right; right. exists c, b. auto.
Qed.

Lemma takewhile_forallb p s : forallb p (takewhile p s) = true.
Proof. induction s as [|c s IH]; cbn; [reflexivity|]. destruct (p c) eqn:X; cbn; [now rewrite X|reflexivity]. Qed.

Section WithEnv.
Context {E : Env}.

Lemma starts2_false a b c (r : str) t : t <> [] -> starts_with [a; b] (c :: t) = false ->
  starts_with [a; b] (c :: t ++ r) = false.
Proof.
  intros N. unfold starts_with. cbn. destruct (a =? c); [|auto].
  destruct t as [|d t]; [congruence|]. cbn. now destruct (b =? d).
Qed.

(** a comment body closes one level *)
Lemma block_loop_closes T Q R lower r : forall n b f s, (length b <= n)%nat ->
  comment_body b -> inv T s -> rest s = b ++ r -> (length (rest s) < f)%nat ->
  (forall f' s', (length r < f')%nat -> rest s' = r -> adv T s s' ->
     wp (block_loop f' lower) Q R s') ->
  wp (block_loop f (S lower)) Q R s.
Proof.
  intros n. revert lower r. induction n as [|n IH]; intros lower r b f s Ln CB I Hs Lf K.
  { apply comment_body_len in CB. lia. }
  destruct f as [|f]; [lia|]. cbn [block_loop].
  assert (CL := comment_body_len _ CB).
  destruct (comment_body_split b CB) as [EB C]. set (p := takewhile ordinary b) in *.
  set (q := dropwhile ordinary b) in *.
  assert (QN : q <> []).
  { destruct C as [(x & y & -> & _)|[->|(c & b' & -> & _)]]; discriminate. }
  assert (TW : takewhile ordinary (rest s) = p).
  { rewrite Hs, EB, <- app_assoc. apply takewhile_app; [apply takewhile_forallb|].
    assert (D := dropwhile_not ordinary b). fold q in D. destruct q; [congruence|]. exact D. }
  eapply wp_bind_ok; [apply next_while_eq|]. fold ordinary.
  change (fun c : char => negb ((c =? 47) || (c =? 42))) with ordinary. rewrite TW.
  eapply wp_bind_ok; [reflexivity|].
  assert (HS' : rest s = p ++ (q ++ r)) by (rewrite Hs, EB; now rewrite <- app_assoc).
  destruct (rest s) as [|c0 l0] eqn:HR. { destruct p; [destruct q; [congruence|discriminate]|discriminate]. }
  rewrite <- HR in *. clear HR c0 l0.
  eapply wp_bind_ok; [eapply advance_ok with (p := p); [exact HS'|reflexivity]|].
  set (s1 := moved (q ++ r) s).
  assert (A1 : adv T s s1) by (apply adv_moved; [assumption|rewrite HS'; apply suf_app]).
  assert (LB : length b = (length p + length q)%nat) by (rewrite EB, app_length; reflexivity).
  assert (LR : length (rest s) = (length p + (length q + length r))%nat)
    by (rewrite HS', !app_length; reflexivity).
  clearbody p q. cbn in A1.
  destruct C as [(x & y & Hq & CX & CY)|[Hq|(c & b' & Hq & CB' & N1 & N2)]]; subst q.
  - (* a nested comment *)
    assert (LQ := LR); cbn in LQ; rewrite app_length in LQ; cbn in LB; rewrite app_length in LB.
    apply wp_bind. eapply wp_ok.
    { rewrite consume_str_eq. unfold s1. cbn. cbn. reflexivity. }
    set (s2 := moved _ _).
    assert (A2 : adv T s1 s2).
    { apply adv_moved; [apply A1|]. cbn. cbn. now exists [c_slash; c_star]. }
    eapply (IH (S lower) (y ++ r) x); [| |apply A2| | |].
    + slia.
    + exact CX.
    + cbn. now rewrite <- app_assoc.
    + cbn. rewrite !app_length. slia.
    + intros f' s3 L3 R3 A3. eapply (IH lower r y); [| |apply A3|exact R3| |].
      * slia.
      * exact CY.
      * rewrite R3. slia.
      * intros f4 s4 L4 R4 A4. apply K; [slia|assumption|]. eauto using adv_trans.
  - (* closed *)
    apply wp_bind. eapply wp_ok.
    { rewrite consume_str_eq. unfold s1. cbn. reflexivity. }
    apply wp_bind. eapply wp_ok.
    { rewrite consume_str_eq. unfold s1. cbn. cbn. reflexivity. }
    set (s2 := moved _ _).
    assert (A2 : adv T s1 s2).
    { apply adv_moved; [apply A1|]. cbn. cbn. now exists [c_star; c_slash]. }
    apply K; [cbn in LR; slia|reflexivity|eauto using adv_trans].
  - (* a lone slash or star *)
    assert (NB : b' <> []) by (intros ->; apply comment_body_len in CB'; cbn in CB'; slia).
    cbn [length] in LB, LR.
    apply wp_bind. eapply wp_ok.
    { rewrite consume_str_eq. unfold s1. cbn [rest moved set_rest set_prev]. 
      apply (starts2_false _ _ _ r) in N1; [|assumption]. unfold starts_with in N1. cbn [app] in *.
      unfold s_open_comment. destruct (strip_prefix _ _); [discriminate|reflexivity]. }
    apply wp_bind. eapply wp_ok.
    { rewrite consume_str_eq. unfold s1. cbn [rest moved set_rest set_prev]. 
      apply (starts2_false _ _ _ r) in N2; [|assumption]. unfold starts_with in N2. cbn [app] in *.
      unfold s_close_comment. destruct (strip_prefix _ _); [discriminate|reflexivity]. }
    apply wp_bind, wp_map_err. eapply wp_ok; [unfold next_char, s1; cbn; reflexivity|].
    set (s2 := set_rest _ _).
    assert (A2 : adv T s1 s2).
    { apply adv_set_rest; [apply A1|]. cbn. now exists [c]. }
    eapply (IH lower r b'); [| |apply A2|reflexivity| |].
    + slia.
    + exact CB'.
    + cbn. fold str. rewrite app_length. slia.
    + intros f' s3 L3 R3 A3. apply K; [assumption|assumption|eauto using adv_trans].
Qed.

(** conversely, what it skips is [level] comment bodies *)
Fixpoint closes (n : nat) (t : str) : Prop :=
  match n with
  | O => t = []
  | S n => exists b t', t = b ++ t' /\ comment_body b /\ closes n t'
  end.
Lemma closes_ordinary p n t : forallb ordinary p = true -> closes (S n) t -> closes (S n) (p ++ t).
Proof.
  intros F (b & t' & -> & CB & C). exists (p ++ b), t'. split; [apply app_assoc|]. split; [|assumption].
  induction p as [|c p IH]; cbn; [assumption|]. cbn in F. apply andb_true_iff in F as [O F].
  apply cb_char; [auto| |]; unfold starts_with, ordinary in *; cbn [strip_prefix].
  - destruct (47 =? c) eqn:X; [lia|reflexivity].
  - destruct (42 =? c) eqn:X; [lia|reflexivity].
Qed.

Lemma block_loop_sound f : forall level s s', block_loop f level s = Ok tt s' ->
  exists t, rest s = t ++ rest s' /\ closes level t.
Proof.
  induction f as [|f IH]; intros level s s' H.
  { destruct level; cbn in H; [|discriminate]. injection H as ->. now exists []. }
  destruct level as [|lower]; cbn [block_loop] in H.
  { injection H as <-. now exists []. }
  unfold bind at 1 in H. rewrite next_while_eq in H.
  change (fun c : char => negb ((c =? 47) || (c =? 42))) with ordinary in H.
  unfold bind at 1, src in H.
  destruct (rest s) as [|c0 l0] eqn:HR; [discriminate|]. rewrite <- HR in H |- *. clear HR c0 l0.
  change (fun c : char => negb ((c =? 47) || (c =? 42))) with ordinary in H.
  set (p := takewhile ordinary (rest s)) in *.
  assert (HS := take_drop_while ordinary (rest s)). set (q := dropwhile ordinary (rest s)) in *.
  assert (PF : forallb ordinary p = true) by apply takewhile_forallb.
  fold p in HS.
  unfold bind at 1 in H. rewrite (advance_ok s (blen p) p q HS eq_refl) in H.
  enough (exists t, q = t ++ rest s' /\ closes (S lower) t) as (t & Ht & Ct).
  { exists (p ++ t). split; [rewrite HS, Ht; apply app_assoc|now apply closes_ordinary]. }
  unfold bind at 1 in H. rewrite consume_str_eq in H. cbn [rest moved set_rest set_prev] in H.
  destruct (strip_prefix s_open_comment q) as [r|] eqn:X.
  { apply strip_prefix_some in X. apply IH in H as (t & Ht & Ct). cbn in Ht. subst r.
    destruct Ct as (b & t' & -> & CB & b2 & t2 & -> & CB2 & CL).
    exists (c_slash :: c_star :: b ++ b2 ++ t2). split; [rewrite X; cbn; now rewrite <- !app_assoc|].
    exists (c_slash :: c_star :: b ++ b2), t2. split; [cbn; now rewrite <- app_assoc|].
    split; [now constructor|assumption]. }
  unfold bind at 1 in H. rewrite consume_str_eq in H. cbn [rest moved set_rest set_prev] in H.
  destruct (strip_prefix s_close_comment q) as [r|] eqn:Y.
  { apply strip_prefix_some in Y. apply IH in H as (t & Ht & Ct). cbn in Ht. subst r.
    exists (c_star :: c_slash :: t). split; [rewrite Y; reflexivity|].
    exists [c_star; c_slash], t. split; [reflexivity|]. split; [constructor|assumption]. }
  unfold bind at 1, map_err, try, next_char in H. cbn [rest moved set_rest set_prev] in H.
  destruct q as [|c r] eqn:Hq; [discriminate|]. cbn in H. apply IH in H as (t & Ht & Ct). cbn in Ht.
  exists (c :: t). split; [cbn; now f_equal|].
  destruct Ct as (b & t' & -> & CB & CL). exists (c :: b), t'. split; [reflexivity|]. split; [|assumption].
  subst r. assert (L := comment_body_len _ CB).
  apply cb_char; [assumption| |].
  - unfold starts_with. destruct (strip_prefix _ (c :: b)) eqn:Z; [|reflexivity].
    apply strip_prefix_some in Z. cbn in Z. injection Z as -> ->. cbn in X. discriminate.
  - unfold starts_with. destruct (strip_prefix _ (c :: b)) eqn:Z; [|reflexivity].
    apply strip_prefix_some in Z. cbn in Z. injection Z as -> ->. cbn in Y. discriminate.
Qed.

(** errors of the comment loop *)
Lemma block_loop_error f : forall level s e s', block_loop f level s = Err e s' -> e = EUnclosedBlockComment.
Proof.
  induction f as [|f IH]; intros level s e s' H; destruct level as [|lower]; try discriminate.
  cbn [block_loop] in H. unfold bind at 1 in H. rewrite next_while_eq in H.
  unfold bind at 1, src in H. destruct (rest s) eqn:HR; [injection H as <- _; reflexivity|].
  unfold bind at 1 in H. rewrite <- HR in H. rewrite advance_while in H.
  unfold bind at 1 in H. rewrite consume_str_eq in H.
  destruct (strip_prefix s_open_comment _); [eapply IH; eassumption|].
  unfold bind at 1 in H. rewrite consume_str_eq in H.
  destruct (strip_prefix s_close_comment _); [eapply IH; eassumption|].
  unfold bind at 1, map_err, try, next_char in H.
  destruct (rest (moved _ s)); [injection H as <- _; reflexivity|].
  cbn in H. eapply IH; eassumption.
Qed.

(** ** skip_ws *)

(** the leading whitespace characters of a layout, and its first comment *)
Lemma layout_split w : layout w ->
  let p := takewhile is_ws_char w in let q := dropwhile is_ws_char w in
  w = p ++ q /\
  (q = [] \/
   (exists t w', q = c_slash :: c_slash :: t ++ c_nl :: w' /\ no_newline t /\ layout w') \/
   (exists b w', q = c_slash :: c_star :: b ++ w' /\ comment_body b /\ layout w')).
Proof.
  induction 1 as [|c w C L IH|t w N L IH|b w B L IH]; cbv zeta.
  - auto.
  - cbv zeta in IH. destruct IH as [EQ CS]. cbn [takewhile dropwhile]. rewrite C.
    split; [cbn; now f_equal|exact CS].
  - cbn. split; [reflexivity|]. right; left. exists t, w. auto.
  - cbn. split; [reflexivity|]. right; right. exists b, w. auto.
Qed.

Lemma solid_not_ws r : solid r -> starts_not is_ws_char r.
Proof. destruct r; cbn; tauto. Qed.

Lemma no_newline_forallb t : no_newline t -> forallb (fun c => negb (c =? c_nl)) t = true.
Proof. induction 1; cbn; [reflexivity|]. rewrite IHForall. lia. Qed.

(** the layout is passed and the loop stands at what follows *)
Definition after_ws (f : nat) : M bool :=
  c <- skip_comment ;;
  match c with
  | None => ret false
  | Some UnclosedLine => ret true
  | Some _ => ws_loop f
  end.
Lemma ws_loop_passes T (Q : bool -> st -> Prop) (R : err -> st -> Prop) : forall n w, (length w <= n)%nat -> layout w -> forall r f s, starts_not is_ws_char r ->
  inv T s -> rest s = w ++ r -> (length (rest s) < f)%nat ->
  (forall f' s', (length r <= f')%nat -> rest s' = r -> adv T s s' -> wp (after_ws f') Q R s') ->
  wp (ws_loop f) Q R s.
Proof.
  induction n as [|n IH]; intros w Ln L r f s SO I Hs Lf K; (destruct f as [|f]; [slia|]).
  all: cbn [ws_loop].
  all: destruct (layout_split w L) as [EW C]; set (p := takewhile is_ws_char w) in *;
       set (q := dropwhile is_ws_char w) in *.
  all: assert (DW : dropwhile is_ws_char (rest s) = q ++ r).
  1,3: rewrite Hs; rewrite EW at 1; rewrite <- app_assoc; apply dropwhile_app; [apply takewhile_forallb|];
       destruct C as [->|[(t & w' & -> & _)|(b & w' & -> & _)]]; [exact SO|reflexivity|reflexivity].
  all: apply wp_advance_while with T; [assumption|]; intros A1; rewrite DW in *.
  all: assert (LW : length w = (length p + length q)%nat) by (rewrite EW at 1; apply app_length).
  all: assert (LR : length (rest s) = (length w + length r)%nat) by (rewrite Hs; apply app_length).
  - (* empty *)
    assert (Hq : q = []) by (destruct q; [reflexivity|cbn in LW; slia]). rewrite Hq in *.
    apply K; [cbn in *; slia|reflexivity|exact A1].
  - destruct C as [Hq|[(t & w' & Hq & NL & LW')|(b & w' & Hq & CB & LW')]].
    + rewrite Hq in *. apply K; [cbn in *; slia|reflexivity|exact A1].
    + (* line comment *)
      apply wp_bind; unfold skip_comment; apply wp_bind.
      rewrite Hq in A1 |- *. cbn [app] in *. eapply wp_ok; [rewrite consume_char_eq; reflexivity|].
      set (s2 := moved _ _). eapply wp_bind_ok; [reflexivity|]. cbv beta iota.
      set (s3 := set_rest _ s2).
      assert (A3 : adv T s s3).
      { eapply adv_trans; [exact A1|]. eapply adv_trans.
        - apply adv_moved; [apply A1|]. now exists [c_slash].
        - apply adv_set_rest; [|now exists [c_slash]]. apply inv_moved; [apply A1|]. now exists [c_slash]. }
      change (47 =? 47) with true. cbv iota. apply wp_advance_while with T; [apply A3|]. intros A4.
      assert (DL : dropwhile (fun c => negb (c =? 10)) (rest s3) = 10 :: w' ++ r).
      { cbn [rest s3 set_rest]. rewrite <- app_assoc. apply dropwhile_app; [now apply no_newline_forallb|reflexivity]. }
      rewrite DL in *. set (s4 := moved _ _) in *.
      eapply wp_bind_ok; [reflexivity|]. apply wp_ret. cbn [rest s4 moved set_rest].
      assert (LQ : length q = (S (S (length t + S (length w'))))%nat) by (rewrite Hq; cbn; rewrite app_length; reflexivity).
      apply (IH (10 :: w')) with (r := r).
      * cbn. slia.
      * now apply l_ws.
      * assumption.
      * apply A4.
      * reflexivity.
      * cbn. fold str. rewrite app_length. slia.
      * intros f5 s5 L5 R5 A5. apply K; [assumption|assumption|]. eauto using adv_trans.
    + (* block comment *)
      apply wp_bind; unfold skip_comment; apply wp_bind.
      rewrite Hq in A1 |- *. cbn [app] in *. eapply wp_ok; [rewrite consume_char_eq; reflexivity|].
      set (s2 := moved _ _). eapply wp_bind_ok; [reflexivity|]. cbv beta iota.
      set (s3 := set_rest _ s2).
      assert (A3 : adv T s s3).
      { eapply adv_trans; [exact A1|]. eapply adv_trans.
        - apply adv_moved; [apply A1|]. now exists [c_slash].
        - apply adv_set_rest; [|now exists [c_star]]. apply inv_moved; [apply A1|]. now exists [c_slash]. }
      change (42 =? 47) with false. change (42 =? 42) with true. cbv iota.
      eapply wp_bind_ok; [reflexivity|]. apply wp_bind.
      assert (LQ : length q = (S (S (length b + length w')))%nat) by (rewrite Hq; cbn; rewrite app_length; reflexivity).
      eapply (block_loop_closes T _ _ 0 (w' ++ r) (length b) b); [slia|exact CB|apply A3| | |].
      * cbn [rest s3 set_rest]. now rewrite <- app_assoc.
      * slia.
      * intros f' s4 L4 R4 A4. destruct f' as [|f']; [slia|]. cbn [block_loop]. apply wp_ret, wp_ret.
        apply (IH w') with (r := r); auto.
        -- slia.
        -- apply A4.
        -- rewrite R4, app_length. slia.
        -- intros f5 s5 L5 R5 A5. apply K; [assumption|assumption|]. eauto using adv_trans.
Qed.

Lemma ws_loop_layout T (Q : bool -> st -> Prop) (R : err -> st -> Prop) w r f s :
  layout w -> solid r -> inv T s -> rest s = w ++ r -> (length (rest s) < f)%nat ->
  (forall s', rest s' = r -> adv T s s' -> Q false s') ->
  wp (ws_loop f) Q R s.
Proof.
  intros L SO I Hs Lf K.
  eapply ws_loop_passes with (w := w) (n := length w); eauto using solid_not_ws.
  intros f' s' Lf' R' A. unfold after_ws, skip_comment. apply wp_bind, wp_bind. eapply wp_ok.
  { rewrite consume_char_eq, R'. destruct r as [|d r']; [reflexivity|].
    replace (d =? 47) with false by (destruct SO; lia). reflexivity. }
  apply wp_ret, wp_ret. now apply K.
Qed.

(** ** Unclosed comments *)

Definition unclosed (b : str) : Prop := forall p q, b = p ++ q -> ~ comment_body p.

Lemma skip_comment_unclosed T s b : inv T s -> rest s = c_slash :: c_star :: b -> unclosed b ->
  wp skip_comment (fun _ _ => False) (fun e _ => e = EUnclosedBlockComment) s.
Proof.
  intros I Hs U. unfold skip_comment. apply wp_bind. eapply wp_ok; [rewrite consume_char_eq, Hs; reflexivity|].
  set (s1 := moved _ _). cbv iota. eapply wp_bind_ok; [reflexivity|].
  change (42 =? 47) with false. change (42 =? 42) with true. cbv iota.
  set (s2 := set_rest _ _).
  assert (A2 : adv T s s2).
  { eapply adv_trans; [apply adv_moved; [assumption|]|apply adv_set_rest].
    - rewrite Hs. now exists [c_slash].
    - apply inv_moved; [assumption|]. rewrite Hs. now exists [c_slash].
    - cbn. now exists [c_star]. }
  eapply wp_bind_ok; [reflexivity|]. apply wp_bind.
  assert (W := block_loop_total (S (length (rest s2))) 1 T s2 (adv_inv _ _ _ A2) (le_n _)).
  Transparent wp. unfold wp in *. Opaque wp.
  destruct (block_loop _ 1 s2) as [[] s3|e s3| |] eqn:B; auto.
  - apply block_loop_sound in B as (t & Ht & (p & t' & -> & CB & CT)). cbn in CT. subst t'.
    rewrite app_nil_r in Ht. cbn in Ht. now apply (U p (rest s3)).
  - now apply block_loop_error in B.
Qed.
Lemma wp_skip_ws_unclosed T s w b : inv T s -> layout w -> rest s = w ++ c_slash :: c_star :: b ->
  unclosed b -> wp skip_ws (fun _ _ => False) (fun e _ => e = EUnclosedBlockComment) s.
Proof.
  intros I L Hs U. unfold skip_ws. apply wp_bind, wp_modify.
  assert (A := track_ws_adv T s I). assert (R0 := track_ws_rest s). set (s1 := track_ws s) in *.
  eapply wp_bind_ok; [reflexivity|].
  destruct (rest s1) as [|c l] eqn:HR.
  { rewrite <- R0 in Hs. destruct w; discriminate. }
  rewrite <- HR in *. apply wp_bind.
  eapply ws_loop_passes with (T := T) (w := w) (n := length w); [lia|exact L| |apply A| | |].
  4:{ intros f' s' Lf' R' A'. unfold after_ws. apply wp_bind.
      eapply wp_conseq; [eapply (skip_comment_unclosed T s' b); [apply A'|exact R'|exact U]| |]; cbn;
        [intros; contradiction|auto]. }
  - reflexivity.
  - now rewrite R0.
  - lia.
Qed.

(** the tracked whitespace after skip_ws: everything skipped since the start
    of the run *)
Lemma wp_skip_ws T s w r : inv T s -> rest s = w ++ r -> layout w -> solid r ->
  wp skip_ws (fun _ s' => rest s' = r /\ adv T s s') (fun _ _ => False) s.
Proof.
  intros I Hs L SO. unfold skip_ws. apply wp_bind, wp_modify.
  assert (A := track_ws_adv T s I). assert (R0 := track_ws_rest s). set (s1 := track_ws s) in *.
  eapply wp_bind_ok; [reflexivity|].
  destruct (rest s1) as [|c l] eqn:HR.
  { apply wp_ret. rewrite HR. rewrite Hs in R0. symmetry in R0. apply app_eq_nil in R0 as [-> ->]. auto. }
  rewrite <- HR in *. apply wp_bind.
  eapply ws_loop_layout with (T := T) (w := w); [exact L|exact SO|apply A| | |].
  - now rewrite R0.
  - lia.
  - intros s2 R2 A2. unfold update_last_ws.
    assert (SUF : suf (rest s2) (pre_ws s2)) by apply A2.
    eapply wp_ok.
    { replace (Nat.leb _ _) with true; [reflexivity|]. destruct SUF as [x Hx]. rewrite Hx, blen_app. lia. }
    cbn. split; [assumption|]. eapply adv_trans; [exact A|]. exact A2.
Qed.

(** ** Soundness: only layout is skipped *)

Lemma skip_comment_sound s c s' : skip_comment s = Ok (Some c) s' ->
  exists t, rest s = t ++ rest s' /\
    match c with
    | ClosedLine => exists u, t = c_slash :: c_slash :: u /\ no_newline u /\ exists r, rest s' = c_nl :: r
    | UnclosedLine => exists u, t = c_slash :: c_slash :: u /\ no_newline u /\ rest s' = []
    | Block => exists b, t = c_slash :: c_star :: b /\ comment_body b
    end.
Proof.
  unfold skip_comment. unfold bind at 1. rewrite consume_char_eq.
  destruct (rest s) as [|d r] eqn:HR; [discriminate|].
  destruct (d =? 47) eqn:D; [|discriminate]. apply N.eqb_eq in D as ->.
  unfold bind at 1. unfold next_char. cbn [rest moved set_rest].
  destruct r as [|d r]; [discriminate|]. destruct (d =? 47) eqn:D.
  - apply N.eqb_eq in D as ->. unfold bind at 1. rewrite next_while_eq.
    unfold bind at 1. rewrite advance_while. unfold bind, src, ret. cbn [rest moved set_rest].
    intros [= <- <-]. cbn [rest moved set_rest].
    assert (TD := take_drop_while (fun c => negb (c =? 10)) r).
    assert (NN : no_newline (takewhile (fun c => negb (c =? 10)) r)).
    { clear. unfold no_newline. induction r as [|c r IH]; cbn; [constructor|].
      destruct (negb (c =? 10)) eqn:X; constructor; auto. lia. }
    assert (DN := dropwhile_not (fun c => negb (c =? 10)) r).
    exists (c_slash :: c_slash :: takewhile (fun c => negb (c =? 10)) r).
    split; [cbn; now rewrite <- TD|].
    destruct (dropwhile (fun c => negb (c =? 10)) r) as [|x y].
    + eexists. split; [reflexivity|]. auto.
    + eexists. split; [reflexivity|]. split; [assumption|]. cbn in DN.
      assert (x = 10) by lia. subst x. eauto.
  - destruct (d =? 42) eqn:D2; [|discriminate]. apply N.eqb_eq in D2 as ->.
    unfold bind at 1, src. cbn [rest set_rest]. unfold bind at 1.
    destruct (block_loop _ 1 _) as [[] s2|e s2| |] eqn:B; try discriminate.
    intros [= <- <-]. apply block_loop_sound in B as (t & Ht & (b & t' & -> & CB & CT)).
    cbn in CT. subst t'. rewrite app_nil_r in Ht. cbn [rest set_rest] in Ht.
    exists (c_slash :: c_star :: b). split; [cbn; now rewrite Ht|]. eauto.
Qed.
Lemma skip_comment_none s s' : skip_comment s = Ok None s' -> s' = s /\ starts_with [c_slash] (rest s) = false.
Proof.
  unfold skip_comment. unfold bind at 1. rewrite consume_char_eq.
  destruct (rest s) as [|d r] eqn:HR; [intros [= <-]; auto|].
  destruct (d =? 47) eqn:D.
  2:{ intros [= <-]. split; [reflexivity|]. unfold starts_with. cbn [strip_prefix].
      replace (47 =? d) with false by lia. reflexivity. }
  unfold bind at 1. unfold next_char. cbn [rest moved set_rest].
  destruct r as [|d2 r]; [discriminate|]. destruct (d2 =? 47).
  - unfold bind at 1. rewrite next_while_eq.
    unfold bind at 1. rewrite advance_while. unfold bind, src, ret. discriminate.
  - destruct (d2 =? 42); [|discriminate]. unfold bind at 1, src. unfold bind.
    destruct (block_loop _ 1 _); discriminate.
Qed.

Lemma takewhile_layout r : layout (takewhile is_ws_char r).
Proof. apply layout_spaces. induction r as [|c r IH]; cbn; [constructor|]. destruct (is_ws_char c) eqn:X; constructor; auto. Qed.

Lemma ws_loop_sound f : forall s u s', ws_loop f s = Ok u s' ->
  exists w, rest s = w ++ rest s' /\
    if u : bool then rest s' = [] /\ final_layout w else layout w /\ solid (rest s').
Proof.
  induction f as [|f IH]; intros s u s' H; [discriminate|]. cbn [ws_loop] in H.
  unfold bind at 1 in H. rewrite next_while_eq in H. unfold bind at 1 in H. rewrite advance_while in H.
  assert (TD := take_drop_while is_ws_char (rest s)).
  assert (LT := takewhile_layout (rest s)). assert (DN := dropwhile_not is_ws_char (rest s)).
  set (p := takewhile is_ws_char (rest s)) in *. set (q := dropwhile is_ws_char (rest s)) in *.
  unfold bind in H. destruct (skip_comment (moved q s)) as [c s2|e s2| |] eqn:SC; try discriminate.
  destruct c as [c|].
  - apply skip_comment_sound in SC as (t & Ht & C). cbn [rest moved set_rest] in Ht.
    destruct c.
    + (* unclosed or closed or block, in declaration order *)
      destruct C as (v & -> & NV & r & Hr). apply IH in H as (w & Hw & CW).
      rewrite Hr in Hw. rewrite Hr in Ht.
      destruct w as [|c w].
      { cbn in Hw. destruct u; [destruct CW as [X _]; rewrite X in Hw; discriminate|].
        destruct CW as [_ SO]. rewrite <- Hw in SO. destruct SO as [X _]. discriminate. }
      cbn in Hw. injection Hw as <- ->.
      exists (p ++ (47 :: 47 :: v) ++ 10 :: w). split; [rewrite TD, Ht; now rewrite <- !app_assoc|].
      assert (PRE : forall y, layout y -> layout (p ++ (47 :: 47 :: v) ++ 10 :: y)).
      { intros y Y. apply layout_app; [assumption|]. apply l_line; auto. }
      destruct u.
      * destruct CW as [X FL]. split; [assumption|]. destruct FL as [FL|(w' & x & FL & NX & FE)].
        -- left. apply PRE. now inversion FL.
        -- destruct w' as [|c w']; cbn in FE; [discriminate|]. injection FE as <- ->.
           right. exists (p ++ (47 :: 47 :: v) ++ 10 :: w'), x. split; [apply PRE; now inversion FL|].
           split; [assumption|]. now rewrite <- !app_assoc.
      * destruct CW as [FL SO]. split; [apply PRE; now inversion FL|assumption].
    + injection H as <- <-. destruct C as (v & -> & NV & Hr).
      exists (p ++ 47 :: 47 :: v). split; [rewrite TD, Ht; now rewrite <- app_assoc|].
      split; [assumption|]. right. exists p, v. auto.
    + destruct C as (b & -> & CB). apply IH in H as (w & Hw & CW). rewrite Hw in Ht.
      exists (p ++ (47 :: 42 :: b) ++ w). split; [rewrite TD, Ht; now rewrite <- !app_assoc|].
      assert (PRE : forall y, layout y -> layout (p ++ (47 :: 42 :: b) ++ y)).
      { intros y Y. apply layout_app; [assumption|]. apply l_block; auto. }
      destruct u.
      * destruct CW as [X FL]. split; [assumption|]. destruct FL as [FL|(w' & x & FL & NX & ->)].
        -- left. now apply PRE.
        -- right. exists (p ++ (47 :: 42 :: b) ++ w'), x. split; [now apply PRE|].
           split; [assumption|]. now rewrite <- !app_assoc.
      * destruct CW as [FL SO]. split; [now apply PRE|assumption].
  - injection H as <- <-. apply skip_comment_none in SC as [-> NS]. cbn [rest moved set_rest] in *.
    exists p. split; [assumption|]. split; [assumption|].
    destruct q as [|c q']; [exact Logic.I|]. cbn in DN. split; [assumption|].
    unfold starts_with in NS. cbn in NS. intros ->. discriminate.
Qed.

Lemma skip_ws_sound s s' : skip_ws s = Ok tt s' ->
  exists w, rest s = w ++ rest s' /\
    ((layout w /\ solid (rest s')) \/ (rest s' = [] /\ final_layout w)).
Proof.
  unfold skip_ws. unfold bind at 1, modify. unfold bind at 1, src. intros H.
  assert (R0 := track_ws_rest s). set (s1 := track_ws s) in *.
  destruct (rest s1) as [|c l] eqn:HR.
  { injection H as <-. exists []. rewrite HR, <- R0. split; [reflexivity|]. left. split; [constructor|exact Logic.I]. }
  rewrite <- HR in *. unfold bind in H. destruct (ws_loop _ s1) as [u s2|e s2| |] eqn:W; try discriminate.
  apply ws_loop_sound in W as (w & Hw & C). rewrite <- R0 in *. exists w.
  destruct u.
  - injection H as <-. cbn. split; [assumption|]. right. assumption.
  - unfold update_last_ws in H. destruct (Nat.leb _ _); [|discriminate]. injection H as <-. cbn.
    split; [assumption|]. left. assumption.
Qed.

End WithEnv.
