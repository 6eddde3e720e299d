(** The typed deserializer reads every representation of a value. *)
From Coq Require Import String Ascii NArith ZArith Lia Bool List Permutation.
From Coq Require Import ZifyBool ZifyNat ZifyN.
From Verif Require Import Base Facts Value Data Parse De Span Wp EnvOk Layout Lit Attr LexSafe LexWs LexRead DocRead LexDoc Fuel Repr ReprFacts.
Import ListNotations.
Open Scope N_scope.
Open Scope list_scope.
Open Scope m_scope.

(** equality of texts up to the grouping of their parts *)
Ltac texts := repeat (rewrite <- app_assoc || cbn [app]); rewrite ?app_nil_r; reflexivity.

Definition room (c : nat) (l : option nat) : Prop := match l with None => True | Some k => (c <= k)%nat end.
Lemma room_le c c' l : (c <= c')%nat -> room c' l -> room c l.
Proof. destruct l; cbn; lia || auto. Qed.

(** what may follow a value *)
Definition delim (r : str) : Prop :=
  match r with
  | [] => True
  | c :: _ => is_ws_char c = true \/ In c [c_slash; c_rp; c_rb; c_rc; c_comma; c_colon]
  end.
Lemma layout_delim w r : layout w -> delim r -> delim (w ++ r).
Proof. intros L D. destruct (layout_head w L) as [->|(c & w' & -> & [H| ->])]; cbn; auto. Qed.
Lemma final_delim w : final_layout w -> delim w.
Proof. intros H. destruct (final_head w H) as [->|(c & w' & -> & [W| ->])]; cbn; auto. Qed.
Definition begins (c : char) (r : str) : Prop := exists r', r = c :: r'.
Lemma begins_delim c r : In c [c_slash; c_rp; c_rb; c_rc; c_comma; c_colon] -> begins c r -> delim r.
Proof. intros H (r' & ->). cbn. right. exact H. Qed.

Section WithEnv.
Context {E : Env} {X : XidOk E}.

Lemma delim_ident_end r : delim r -> ident_end r.
Proof.
  destruct r as [|c r]; [trivial|]. cbn [delim]. intros H.
  assert (XC : xid_continue c = false).
  { destruct H as [H|H]; [now apply ws_not_xid|]. rewrite xid_continue_ascii by (cbn in H; lia). unfold is_alpha, is_digit. cbn in H. lia. }
  unfold ident_end, is_ident_raw_char. rewrite XC. destruct H as [H|H]; [unfold is_ws_char in H|cbn in H]; lia.
Qed.
Lemma delim_xid r : delim r -> starts_not xid_continue r.
Proof. intros H. now apply ident_end_xid, delim_ident_end. Qed.
Lemma delim_float r : delim r -> float_end r.
Proof.
  intros H. left. assert (XC := delim_xid r H). destruct r as [|c r]; [trivial|]. cbn in *. rewrite XC, orb_false_r.
  destruct H as [H|H]; [apply ws_not_float; auto|].
  unfold is_float_char, is_digit. cbn in H. lia.
Qed.

Section Exts.
Variable e : exts.

(** From a state with the extensions [e], the flag [n] and room for [c] nested
    calls, [m] reads exactly [t], if the text after it satisfies [D], and
    returns [a]; afterwards the flag is [n'] and the budget is as before. *)
Definition tr {A} (m : M A) (n n' : bool) (c : nat) (t : str) (D : str -> Prop) (a : A) : Prop :=
  forall T s r, inv T s -> rest s = t ++ r -> D r -> ext s = e -> nt s = n -> room c (lim s) ->
  wp m (fun a' s' => a' = a /\ rest s' = r /\ inv T s' /\ ext s' = e /\ nt s' = n' /\ lim s' = lim s)
     (fun _ _ => False) s.

Lemma tr_bind {A B} (m : M A) (k : A -> M B) n n1 n2 c t1 t2 (D1 D2 : str -> Prop) a b :
  tr m n n1 c t1 D1 a -> tr (k a) n1 n2 c t2 D2 b -> (forall r, D2 r -> D1 (t2 ++ r)) ->
  tr (bind m k) n n2 c (t1 ++ t2) D2 b.
Proof.
  intros H1 H2 HD T s r J Hs Dr He Hn Hl. rewrite <- app_assoc in Hs. apply wp_bind.
  eapply wp_conseq; [apply (H1 T s (t2 ++ r)); auto| |auto]. cbn beta.
  intros a' s' (-> & R' & J' & E' & N' & L').
  eapply wp_conseq; [apply (H2 T s' r); auto; now rewrite L'| |auto]. cbn beta.
  intros b' s2 (-> & R2 & J2 & E2 & N2 & L2). repeat split; try apply J2; auto. congruence.
Qed.
Lemma tr_lex {A} (m : M A) n c t D a : reads m t D a -> tr m n n c t D a.
Proof.
  intros H T s r J Hs Dr He Hn Hl. eapply wp_conseq; [apply (H T s r); auto| |auto]. cbn beta.
  intros a' s' (-> & R' & J' & _ & K). destruct K as (K1 & K2 & K3 & K4). split; [reflexivity|]. split; [assumption|].
  split; [assumption|]. repeat split; congruence.
Qed.
Lemma tr_ret {A} (a : A) n c D : tr (ret a) n n c [] D a.
Proof. apply tr_lex, reads_ret. Qed.
Lemma tr_text {A} (m : M A) n n' c t t' D a : tr m n n' c t D a -> t = t' -> tr m n n' c t' D a.
Proof. now intros H <-. Qed.
Lemma tr_D {A} (m : M A) n n' c t (D D' : str -> Prop) a : tr m n n' c t D a -> (forall r, D' r -> D r) -> tr m n n' c t D' a.
Proof. intros H HD T s r J Hs Dr. now apply H; auto. Qed.
Lemma tr_le {A} (m : M A) n n' c c' t D a : (c <= c')%nat -> tr m n n' c t D a -> tr m n n' c' t D a.
Proof. intros L H T s r J Hs Dr He Hn Hl. apply H; auto. eapply room_le; eassumption. Qed.
(** nothing of the text is read by the continuation, or by the first part *)
Lemma tr_bind_l {A B} (m : M A) (k : A -> M B) n n1 n2 c t (D1 D2 : str -> Prop) a b :
  tr m n n1 c t D1 a -> tr (k a) n1 n2 c [] D2 b -> (forall r, D2 r -> D1 r) -> tr (bind m k) n n2 c t D2 b.
Proof. intros H1 H2 HD. eapply tr_text; [eapply (tr_bind m k n n1 n2 c t []); eauto|apply app_nil_r]. Qed.
Lemma tr_bind_r {A B} (m : M A) (k : A -> M B) n n1 n2 c t (D1 D2 : str -> Prop) a b :
  tr m n n1 c [] D1 a -> tr (k a) n1 n2 c t D2 b -> (forall r, D2 r -> D1 (t ++ r)) -> tr (bind m k) n n2 c t D2 b.
Proof. intros H1 H2 HD. now eapply (tr_bind m k n n1 n2 c [] t); eauto. Qed.
Lemma tr_map {A B} (m : M A) (f : A -> B) n n' c t D a : tr m n n' c t D a -> tr (x <- m ;; ret (f x)) n n' c t D (f a).
Proof. intros H. eapply tr_bind_l; [exact H|apply tr_ret|auto]. Qed.
Lemma tr_get {B} (k : st -> M B) n n' c t D b :
  (forall s, ext s = e -> nt s = n -> tr (k s) n n' c t D b) -> tr (bind get k) n n' c t D b.
Proof.
  intros H T s r J Hs Dr He Hn Hl. apply wp_bind, wp_get. now apply (H s He Hn T s r).
Qed.
Lemma tr_nt b n c D : tr (modify (set_nt b)) n b c [] D tt.
Proof. intros T s r J Hs Dr He Hn Hl. apply wp_modify. repeat split; auto; apply J. Qed.
Lemma tr_nt_ext n c D : tr (modify (fun s => set_nt (x_unwrap_variant_newtypes (ext s)) s)) n (x_unwrap_variant_newtypes e) c [] D tt.
Proof. intros T s r J Hs Dr He Hn Hl. apply wp_modify. repeat split; auto; [apply J..|cbn; now rewrite He]. Qed.
Lemma tr_map_err {A} f (m : M A) n n' c t D a : tr m n n' c t D a -> tr (map_err f m) n n' c t D a.
Proof.
  intros H T s r J Hs Dr He Hn Hl. apply wp_map_err. eapply wp_conseq; [apply (H T s r); auto|auto|auto].
Qed.
Lemma inv_set_lim T l s : inv T s -> inv T (set_lim l s).
Proof. exact (fun H => H). Qed.
Lemma tr_guard_with {A} b (m : M A) n n' c t D a : tr m n n' c t D a -> tr (guard_with b m) n n' (S c) t D a.
Proof.
  intros H T s r J Hs Dr He Hn Hl. Transparent wp. unfold wp, guard_with. Opaque wp.
  destruct (lim s) as [[|l]|] eqn:L; cbn [room] in Hl; [lia| |].
  - assert (W := H T (set_lim (Some l) s) r J Hs Dr He Hn). cbn [lim set_lim] in W.
    assert (RM : room c (Some l)) by (cbn; lia). specialize (W RM). Transparent wp. unfold wp in W. Opaque wp.
    destruct (m (set_lim (Some l) s)) as [a' s'|? s'| |]; try contradiction.
    destruct W as (-> & R' & J' & E' & N' & L'). repeat split; try apply J'; auto. cbn [lim set_lim]. rewrite L'. reflexivity.
  - assert (RM : room c (lim s)) by now rewrite L. assert (W := H T s r J Hs Dr He Hn RM).
    Transparent wp. unfold wp in W. Opaque wp. destruct (m s) as [a' s'|? s'| |]; try contradiction. now rewrite L in W.
Qed.
Lemma tr_guard {A} (m : M A) n n' c t D a : tr m n n' c t D a -> tr (guard m) n n' (S c) t D a.
Proof. apply tr_guard_with. Qed.
Lemma tr_guard_r {A} (m : M A) n n' c t D a : tr m n n' c t D a -> tr (guard_r m) n n' (S c) t D a.
Proof. apply tr_guard_with. Qed.
Lemma tr_ident n c t k : ident_lit t k -> tr de_identifier n n c t ident_end k.
Proof.
  intros H. unfold de_identifier. eapply tr_bind_l; [apply tr_lex, reads_identifier; exact H| |auto].
  eapply tr_bind_l with (D1 := anything) (a := tt); [|apply tr_ret|now intros].
  intros T s r J Hs Dr He Hn Hl. apply wp_modify. repeat split; auto; apply J.
Qed.
Lemma tr_ws w n c : layout w -> tr skip_ws n n c w solid tt.
Proof. intros L. now apply tr_lex, reads_ws. Qed.
Lemma tr_char x n c : tr (consume_char x) n n c [x] anything true.
Proof. apply tr_lex, reads_consume_char. Qed.
Lemma tr_src {B} (k : str -> M B) n n' c t (D : str -> Prop) b :
  (forall r, D r -> tr (k (t ++ r)) n n' c t (fun r' => r' = r) b) -> tr (bind src k) n n' c t D b.
Proof.
  intros H T s r J Hs Dr He Hn Hl. apply wp_bind. apply wp_ok with (t ++ r) s; [unfold src; now rewrite Hs|].
  now apply (H r Dr T s r).
Qed.

(** ** Values that may eat the layout after them

    An identifier that stands for a unit is only known to be one when the
    character after the layout has been seen, and the cursor stays there.  What
    remains is then another text that continues in the same way. *)
Definition closing (r : str) : Prop :=
  match r with [] => True | c :: _ => In c [c_rp; c_rb; c_rc; c_comma; c_colon] end.
Definition remainder (K : str -> Prop) : Prop :=
  (forall r, K r <-> final_layout r) \/
  exists r0, closing r0 /\ forall r, K r <-> exists w, layout w /\ r = w ++ r0.
Lemma closing_delim r : closing r -> delim r.
Proof. destruct r; cbn; tauto. Qed.
Lemma closing_begins c r : In c [c_rp; c_rb; c_rc; c_comma; c_colon] -> begins c r -> closing r.
Proof. intros H (r' & ->). exact H. Qed.
Lemma remainder_delim K r : remainder K -> K r -> delim r.
Proof.
  intros [H|(r0 & C & H)] HK; apply H in HK.
  - now apply final_delim.
  - destruct HK as (w & L & ->). now apply layout_delim, closing_delim.
Qed.
Definition trw {A} (m : M A) (c : nat) (t : str) (a : A) : Prop :=
  forall T s r K, remainder K -> K r -> inv T s -> rest s = t ++ r -> ext s = e -> nt s = false -> room c (lim s) ->
  wp m (fun a' s' => a' = a /\ K (rest s') /\ inv T s' /\ ext s' = e /\ nt s' = false /\ lim s' = lim s)
     (fun _ _ => False) s.
Lemma trw_tr {A} (m : M A) c t a : tr m false false c t delim a -> trw m c t a.
Proof.
  intros H T s r K HR HK J Hs He Hn Hl. eapply wp_conseq; [apply (H T s r); eauto using remainder_delim| |auto]. cbn beta.
  intros a' s' (-> & -> & J' & E' & N' & L'). repeat split; auto; apply J'.
Qed.
Lemma trw_bind {A B} (m : M A) (k : A -> M B) n2 c t w t2 (D : str -> Prop) a b :
  trw m c t a -> layout w -> (forall r, D r -> closing (t2 ++ r)) ->
  (forall w', layout w' -> tr (k a) false n2 c (w' ++ t2) D b) -> tr (bind m k) false n2 c (t ++ w ++ t2) D b.
Proof.
  intros H L HD H2 T s r J Hs Dr He Hn Hl. apply wp_bind.
  eapply wp_conseq; [apply (H T s (w ++ t2 ++ r) (fun x => exists w', layout w' /\ x = w' ++ t2 ++ r)); auto| |auto].
  - right. exists (t2 ++ r). split; [now apply HD|]. intros x. reflexivity.
  - now exists w.
  - rewrite Hs. texts.
  - cbn beta. intros a' s' (-> & (w' & L' & R') & J' & E' & N' & LM').
    eapply wp_conseq; [apply (H2 w' L' T s' r); auto; [now rewrite R', <- app_assoc|now rewrite LM']| |auto]. cbn beta.
    intros b' s2 (-> & R2 & J2 & E2 & N2 & L2). repeat split; try apply J2; auto. congruence.
Qed.
Lemma trw_after {A B} (m : M A) (k : A -> M B) c t1 t2 (D1 : str -> Prop) a b :
  tr m false false c t1 D1 a -> trw (k a) c t2 b -> (forall r, delim r -> D1 (t2 ++ r)) -> trw (bind m k) c (t1 ++ t2) b.
Proof.
  intros H1 H2 HD T s r K HR HK J Hs He Hn Hl. rewrite <- app_assoc in Hs. apply wp_bind.
  eapply wp_conseq; [apply (H1 T s (t2 ++ r)); auto; apply HD; eapply remainder_delim; eassumption| |auto]. cbn beta.
  intros a' s' (-> & R' & J' & E' & N' & L').
  eapply wp_conseq; [apply (H2 T s' r K); auto; now rewrite L'| |auto]. cbn beta.
  intros b' s2 (-> & R2 & J2 & E2 & N2 & L2). repeat split; try apply J2; auto. congruence.
Qed.
Lemma trw_bind_ret {A B} (m : M A) (k : A -> M B) c t a b : trw m c t a -> (forall s, k a s = Ok b s) -> trw (bind m k) c t b.
Proof.
  intros H1 H2 T s r K HR HK J Hs He Hn Hl. apply wp_bind. eapply wp_conseq; [apply (H1 T s r K); auto| |auto]. cbn beta.
  intros a' s' (-> & P). apply wp_ok with b s'; [apply H2|]. tauto.
Qed.
Lemma trw_le {A} (m : M A) c c' t a : (c <= c')%nat -> trw m c t a -> trw m c' t a.
Proof. intros L H T s r K HR HK J Hs He Hn Hl. apply (H T s r K); auto. eapply room_le; eassumption. Qed.
Lemma trw_guard_with {A} b (m : M A) c t a : trw m c t a -> trw (guard_with b m) (S c) t a.
Proof.
  intros H T s r K HR HK J Hs He Hn Hl. Transparent wp. unfold wp, guard_with. Opaque wp.
  destruct (lim s) as [[|l]|] eqn:L; cbn [room] in Hl; [lia| |].
  - assert (W := H T (set_lim (Some l) s) r K HR HK J Hs He Hn). cbn [lim set_lim] in W.
    assert (RM : room c (Some l)) by (cbn; lia). specialize (W RM). Transparent wp. unfold wp in W. Opaque wp.
    destruct (m (set_lim (Some l) s)) as [a' s'|? s'| |]; try contradiction.
    destruct W as (-> & R' & J' & E' & N' & L'). repeat split; try apply J'; auto. cbn [lim set_lim]. rewrite L'. reflexivity.
  - assert (RM : room c (lim s)) by now rewrite L. assert (W := H T s r K HR HK J Hs He Hn RM).
    Transparent wp. unfold wp in W. Opaque wp. destruct (m s) as [a' s'|? s'| |]; try contradiction. now rewrite L in W.
Qed.
Lemma trw_guard {A} (m : M A) c t a : trw m c t a -> trw (guard m) (S c) t a.
Proof. apply trw_guard_with. Qed.
Lemma trw_guard_r {A} (m : M A) c t a : trw m c t a -> trw (guard_r m) (S c) t a.
Proof. apply trw_guard_with. Qed.

(** ** Comma separated lists *)
Definition good {A} (m : M A) (c : nat) (t : str) (a : A) : Prop :=
  (forall r, opens (t ++ r)) /\ trw m c t a.
Lemma good_tr {A} (m : M A) c t a : (forall r, opens (t ++ r)) -> tr m false false c t delim a -> good m c t a.
Proof. intros O H. split; [exact O|now apply trw_tr]. Qed.
Definition closer (term : char) : Prop := In term [c_rp; c_rb; c_rc].
Lemma closer_solid term r : closer term -> begins term r -> solid r.
Proof. intros C (r' & ->). unfold closer in C. cbn [In] in C. destruct C as [C|[C|[C|[]]]]; subst term; apply solid_char; reflexivity || discriminate. Qed.
Lemma closer_delim term r : closer term -> begins term r -> delim r.
Proof. intros C B. apply (begins_delim term); [cbn in *; tauto|assumption]. Qed.
Lemma opens_not_closer term r : closer term -> opens r -> starts_not (fun d => d =? term) r.
Proof.
  destruct r as [|c r]; [intros _ []|]. cbn. intros C [_ N]. apply N.eqb_neq. intros ->. apply N. cbn in *. tauto.
Qed.
Lemma closer_not_comma term r : closer term -> begins term r -> starts_not (fun d => d =? c_comma) r.
Proof. intros C (r' & ->). cbn in *. lia. Qed.

Lemma tr_has_more term w n c : closer term -> layout w -> tr (has_element term true) n n c w opens true.
Proof.
  intros C L. unfold has_element. eapply tr_bind_l; [apply (tr_ws w n c L)| |apply opens_solid].
  eapply tr_bind_l; [apply tr_lex, reads_check_char_false| |intros r; now apply opens_not_closer]. apply tr_ret.
Qed.
Lemma tr_has_end term w had n c : closer term -> layout w -> tr (has_element term had) n n c w (begins term) false.
Proof.
  intros C L. unfold has_element. eapply tr_bind_l; [apply (tr_ws w n c L)| |intros r; now apply closer_solid].
  eapply tr_bind_l; [apply tr_lex, reads_check_char| |auto]. destruct had; apply tr_ret.
Qed.
Lemma tr_comma w w' n c : layout w -> layout w' -> tr comma n n c (w ++ c_comma :: w') solid true.
Proof. intros L L'. now apply tr_lex, reads_comma. Qed.
Lemma tr_no_comma w n c term : closer term -> layout w -> tr comma n n c w (begins term) false.
Proof.
  intros C L. eapply tr_D; [apply tr_lex, reads_no_comma; exact L|]. intros r B. split; [now apply closer_solid with term|now apply closer_not_comma with term].
Qed.
Lemma items_solid {A} (R : A -> str -> Prop) l t r : (forall a t, R a t -> forall r, opens (t ++ r)) ->
  items R l t -> solid r -> solid (t ++ r).
Proof.
  intros HR H SR. destruct H as [|a t w H _|a t w w' l ts H _ _ _]; [exact SR|..]; rewrite <- app_assoc; apply opens_solid; eapply HR; eassumption.
Qed.

(** the pieces of an element *)
Lemma tr_elem_comma {A} term (m : M A) c w0 t w w' a : closer term -> layout w0 -> good m c t a -> layout w -> layout w' ->
  tr (next_element term m true) false false (S c) (w0 ++ t ++ w ++ c_comma :: w') solid (Some a, true).
Proof.
  intros C L0 [O G] L L'. unfold next_element.
  apply (tr_bind _ _ false false false (S c) w0 (t ++ w ++ c_comma :: w') opens solid true); [now apply tr_has_more| |intros r _; rewrite <- app_assoc; apply O].
  eapply (trw_bind _ _ false (S c) t w (c_comma :: w') solid a); [now apply trw_guard|assumption|intros r _; cbn; tauto|].
  intros w1 L1. eapply tr_bind_l; [apply tr_comma; assumption|apply tr_ret|auto].
Qed.
Lemma tr_elem_last {A} term (m : M A) c w0 t w a : closer term -> layout w0 -> good m c t a -> layout w ->
  tr (next_element term m true) false false (S c) (w0 ++ t ++ w) (begins term) (Some a, false).
Proof.
  intros C L0 [O G] L. unfold next_element.
  apply (tr_bind _ _ false false false (S c) w0 (t ++ w) opens (begins term) true); [now apply tr_has_more| |intros r _; rewrite <- app_assoc; apply O].
  eapply tr_text; [eapply (trw_bind _ _ false (S c) t w [] (begins term) a); [now apply trw_guard|assumption| |]|now rewrite app_nil_r].
  - intros r. apply closing_begins. cbn in *. tauto.
  - intros w1 L1. rewrite app_nil_r. eapply tr_bind_l; [apply (tr_no_comma w1 false (S c) term C L1)|apply tr_ret|auto].
Qed.
Lemma tr_elem_none {A} term (m : M A) had c w0 : closer term -> layout w0 ->
  tr (next_element term m had) false false c w0 (begins term) (None, had).
Proof.
  intros C L0. unfold next_element. eapply tr_bind_l; [apply (tr_has_end term w0 had false c C L0)|apply tr_ret|auto].
Qed.

Lemma tr_seq_loop {A} term (m : M A) c l t : closer term -> items (fun a t => good m c t a) l t ->
  forall fuel w0 had, layout w0 -> (length l < fuel)%nat -> (had = true \/ l = []) ->
  tr (seq_loop fuel term m had) false false (S c) (w0 ++ t) (begins term) l.
Proof.
  intros C. induction 1 as [|a t w G L|a t w w' l ts G L L' I IH]; intros [|fuel] w0 had L0 F H; cbn [length] in F; try lia; cbn [seq_loop].
  - rewrite app_nil_r. eapply tr_bind_l; [apply tr_elem_none; assumption|apply tr_ret|auto].
  - destruct H as [->|H]; [|discriminate].
    eapply tr_bind_l; [now apply (tr_elem_last term m c w0 t w a)| |auto]. cbn iota.
    destruct fuel as [|fuel]; [lia|]. cbn [seq_loop].
    eapply tr_bind_l with (a := []) (D1 := begins term); [|apply tr_ret|auto].
    eapply tr_bind_l; [apply (tr_elem_none term m false (S c) [] C l_nil)|apply tr_ret|auto].
  - destruct H as [->|H]; [|discriminate].
    eapply tr_text; [eapply (tr_bind _ _ false false false (S c) (w0 ++ t ++ w ++ c_comma :: w') ts solid (begins term) (Some a, true))
      |texts].
    + now apply tr_elem_comma.
    + cbn iota. eapply tr_bind_l with (D1 := begins term); [apply (IH fuel [] true l_nil)|apply tr_ret|auto]; [lia|now left].
    + intros r B. eapply items_solid; [|exact I|now apply closer_solid with term]. now intros a' t' [O _].
Qed.
Lemma items_length {A} (R : A -> str -> Prop) l t : (forall a t, R a t -> forall r, opens (t ++ r)) -> items R l t -> (length l <= length t)%nat.
Proof.
  intros HR. assert (H1 : forall a t, R a t -> (1 <= length t)%nat).
  { intros a s H. specialize (HR a s H []). destruct s; cbn in *; [contradiction|lia]. }
  induction 1 as [|a t w H _|a t w w' l ts H _ _ _ IH]; cbn [length]; rewrite ?app_length; cbn [length]; rewrite ?app_length; try apply H1 in H; unfold str, char in *; lia.
Qed.
Lemma tr_seq_all {A} term (m : M A) c l t w0 : closer term -> items (fun a t => good m c t a) l t -> layout w0 ->
  tr (seq_all term m) false false (S c) (w0 ++ t) (begins term) l.
Proof.
  intros C I L0. unfold seq_all. apply tr_src. intros r B. eapply tr_D; [apply tr_seq_loop; auto|].
  - assert (H := items_length _ _ _ (fun a t (H : good m c t a) => proj1 H) I). rewrite !app_length. unfold str, char in *. lia.
  - now intros r' ->.
Qed.

(** one element per field *)
Lemma tr_tuple_elems {A} c (ps : list (M A * A)) t : items (fun p t => good (fst p) c t (snd p)) ps t ->
  forall w0 had i, layout w0 -> (had = true \/ ps = []) ->
  exists w1 t1 (D : str -> Prop), w0 ++ t = t1 ++ w1 /\ layout w1 /\ (ps <> [] -> w1 = []) /\ (forall r, begins c_rp r -> D (w1 ++ r)) /\
  tr (tuple_elems (map fst ps) i had) false false (S c) t1 D (map snd ps).
Proof.
  assert (C : closer c_rp) by (cbn; tauto).
  induction 1 as [|[m a] t w G L|[m a] t w w' l ts G L L' I IH]; intros w0 had i L0 H; cbn [map tuple_elems fst snd] in *.
  - exists w0, [], anything. rewrite app_nil_r. split; [reflexivity|]. split; [assumption|]. split; [congruence|]. split; [now intros|]. apply tr_ret.
  - destruct H as [->|H]; [|discriminate]. exists [], (w0 ++ t ++ w), (begins c_rp). rewrite app_nil_r. split; [reflexivity|]. split; [constructor|]. split; [reflexivity|]. split; [auto|].
    eapply tr_bind_l; [now apply (tr_elem_last c_rp m c w0 t w a)| |auto]. cbn iota.
    eapply tr_bind_l with (D1 := anything) (a := []); [apply tr_ret|apply tr_ret|now intros].
  - destruct H as [->|H]; [|discriminate]. destruct l as [|p l].
    + inversion I; subst. exists [], (w0 ++ t ++ w ++ c_comma :: w'), (begins c_rp). rewrite !app_nil_r. split; [reflexivity|]. split; [constructor|]. split; [reflexivity|]. split; [auto|].
      eapply tr_bind_l; [eapply tr_elem_comma; eassumption| |intros r; now apply closer_solid]. cbn iota.
      eapply tr_bind_l with (D1 := anything) (a := []); [apply tr_ret|apply tr_ret|now intros].
    + destruct (IH [] true (S i) l_nil (or_introl eq_refl)) as (w1 & t1 & D & EQ & L1 & N1 & HD & H1). rewrite N1 in * by discriminate.
      cbn [app] in EQ. rewrite app_nil_r in EQ. subst t1.
      exists [], (w0 ++ t ++ w ++ c_comma :: w' ++ ts), (begins c_rp). rewrite app_nil_r. split; [reflexivity|]. split; [constructor|]. split; [reflexivity|]. split; [auto|].
      eapply tr_text; [eapply (tr_bind _ _ false false false (S c) (w0 ++ t ++ w ++ c_comma :: w') ts solid (begins c_rp) (Some a, true))
        |texts].
      * now apply tr_elem_comma.
      * cbn iota. eapply tr_bind_l with (D1 := begins c_rp); [eapply tr_D; [exact H1|exact HD]|apply tr_ret|auto].
      * intros r B. eapply items_solid; [|exact I|now apply closer_solid with c_rp]. now intros a' t' [O _].
Qed.

(** ** Maps *)
Definition good_entry {A B} (mk : M A) (mv : M B) (c : nat) : A * B -> str -> Prop :=
  entry (fun k t => good mk c t k) (fun v t => good mv c t v).
Lemma entry_opens {A B} (RK : A -> str -> Prop) (R : B -> str -> Prop) p t : (forall a t, RK a t -> forall r, opens (t ++ r)) ->
  entry RK R p t -> forall r, opens (t ++ r).
Proof. intros H [k tk v tv w w' HK _ _ _] r. rewrite <- app_assoc. eapply H; eassumption. Qed.

Lemma tr_key {A} term (m : M A) c w0 t a (D : str -> Prop) : closer term -> layout w0 -> (forall r, opens (t ++ r)) ->
  tr m false false c t D a -> tr (next_key term m true) false false (S c) (w0 ++ t) D (Some a).
Proof.
  intros C L0 O G. unfold next_key.
  apply (tr_bind _ _ false false false (S c) w0 t opens D true); [now apply tr_has_more| |intros r _; apply O].
  eapply tr_bind_l; [apply tr_guard_r; exact G|apply tr_ret|auto].
Qed.
Lemma trw_key {A} term (m : M A) c w0 t a : closer term -> layout w0 -> good m c t a ->
  trw (next_key term m true) (S c) (w0 ++ t) (Some a).
Proof.
  intros C L0 [O G]. unfold next_key.
  apply (trw_after _ _ (S c) w0 t opens true); [now apply tr_has_more| |intros r _; apply O].
  eapply trw_bind_ret; [apply trw_guard_r; exact G|reflexivity].
Qed.
Lemma tr_no_key {A} term (m : M A) had c w0 : closer term -> layout w0 ->
  tr (next_key term m had) false false c w0 (begins term) None.
Proof. intros C L0. unfold next_key. eapply tr_bind_l; [apply (tr_has_end term w0 had false c C L0)|apply tr_ret|auto]. Qed.
Lemma tr_colon {A} (m : M A) c w w' t w1 t2 a (D : str -> Prop) b : layout w -> layout w' -> good m c t a ->
  layout w1 -> (forall w2, layout w2 -> tr comma false false (S c) (w2 ++ t2) D b) -> (forall r, D r -> closing (t2 ++ r)) ->
  tr (next_value m) false false (S c) (w ++ c_colon :: w' ++ t ++ w1 ++ t2) D (a, b).
Proof.
  intros L L' [O G] L1 CM HD. unfold next_value.
  refine (tr_bind _ _ false false false (S c) w (c_colon :: w' ++ t ++ w1 ++ t2) solid D tt _ _ _ _);
    [now apply tr_ws| |intros r _; apply solid_char; reflexivity || discriminate].
  apply (tr_bind _ _ false false false (S c) [c_colon] (w' ++ t ++ w1 ++ t2) anything D true); [apply tr_char| |now intros].
  refine (tr_bind _ _ false false false (S c) w' (t ++ w1 ++ t2) solid D tt _ _ _ _);
    [now apply tr_ws| |intros r _; rewrite <- app_assoc; apply opens_solid, O].
  eapply (trw_bind _ _ false (S c) t w1 t2 D a); [now apply trw_guard|assumption|assumption|].
  intros w2 L2. eapply tr_bind_l; [now apply CM|apply tr_ret|auto].
Qed.
(** a comma, or none *)
Lemma tr_colon_comma {A} (m : M A) c w w' t w1 w1' a : layout w -> layout w' -> good m c t a -> layout w1 -> layout w1' ->
  tr (next_value m) false false (S c) (w ++ c_colon :: w' ++ t ++ w1 ++ c_comma :: w1') solid (a, true).
Proof. intros L L' G L1 L1'. apply tr_colon; auto; [intros w2 L2; now apply tr_comma|cbn; tauto]. Qed.
Lemma tr_colon_last {A} (m : M A) c w w' t w1 a term : closer term -> layout w -> layout w' -> good m c t a -> layout w1 ->
  tr (next_value m) false false (S c) (w ++ c_colon :: w' ++ t ++ w1) (begins term) (a, false).
Proof.
  intros C L L' G L1. eapply tr_text; [apply (tr_colon m c w w' t w1 [] a (begins term) false); auto|rewrite app_nil_r; reflexivity].
  - intros w2 L2. rewrite app_nil_r. now apply tr_no_comma.
  - intros r. apply closing_begins. cbn in *. tauto.
Qed.
Lemma tr_map_loop {A B} term (mk : M A) (mv : M B) c l t : closer term -> items (good_entry mk mv c) l t ->
  forall fuel w0 had, layout w0 -> (length l < fuel)%nat -> (had = true \/ l = []) ->
  tr (map_loop fuel term mk mv had) false false (S c) (w0 ++ t) (begins term) l.
Proof.
  intros C.
  induction 1 as [|a t w G L|a t w w' l ts G L L' I IH]; intros [|fuel] w0 had L0 F H; cbn [length] in F; try lia; cbn [map_loop].
  - rewrite app_nil_r. eapply tr_bind_l; [apply tr_no_key; assumption|apply tr_ret|auto].
  - destruct H as [->|H]; [|discriminate]. destruct G as [k tk v tv w1 w2 GK L1 L2 GV].
    eapply tr_text; [eapply (trw_bind _ _ false (S c) (w0 ++ tk) w1 (c_colon :: w2 ++ tv ++ w) (begins term) (Some k))
      |texts].
    + now apply trw_key.
    + assumption.
    + intros r _. cbn. tauto.
    + intros w1' L1'. eapply tr_bind_l with (D1 := begins term); [apply (tr_colon_last mv c w1' w2 tv w v term); auto| |auto].
      cbn [fst snd]. eapply tr_bind_l with (D1 := begins term) (a := []); [|apply tr_ret|auto].
      destruct fuel as [|fuel]; [lia|]. cbn [map_loop].
      eapply tr_bind_l; [apply (tr_no_key term mk false (S c) [] C l_nil)|apply tr_ret|auto].
  - destruct H as [->|H]; [|discriminate]. destruct G as [k tk v tv w1 w2 GK L1 L2 GV].
    eapply tr_text; [eapply (trw_bind _ _ false (S c) (w0 ++ tk) w1 (c_colon :: w2 ++ tv ++ w ++ c_comma :: w' ++ ts) (begins term) (Some k))
      |texts].
    + now apply trw_key.
    + assumption.
    + intros r _. cbn. tauto.
    + intros w1' L1'. eapply tr_text; [refine (tr_bind _ _ false false false (S c) (w1' ++ c_colon :: w2 ++ tv ++ w ++ c_comma :: w') ts solid (begins term) (v, true) _ _ _ _)|texts].
      * apply tr_colon_comma; assumption.
      * cbn [fst snd]. eapply tr_bind_l with (D1 := begins term); [apply (IH fuel [] true l_nil); [lia|now left]|apply tr_ret|auto].
      * intros r HB. eapply items_solid; [|exact I|now apply closer_solid with term]. intros a' t' G. eapply entry_opens; [|exact G]. now intros ? ? [].
Qed.
Lemma tr_map_all {A B} term (mk : M A) (mv : M B) c l t w0 : closer term -> items (good_entry mk mv c) l t -> layout w0 ->
  tr (map_all term mk mv) false false (S c) (w0 ++ t) (begins term) l.
Proof.
  intros C I L0. unfold map_all. apply tr_src. intros r HB. eapply tr_D; [apply tr_map_loop; auto|].
  - assert (H := items_length _ _ _ (fun a t (H : good_entry mk mv c a t) => entry_opens _ _ a t (fun k tk (G : good mk c tk k) => proj1 G) H) I).
    rewrite !app_length. unfold str, char in *. lia.
  - now intros r' ->.
Qed.

(** ** Structs *)
Section Fields.
Variable value_of : ty -> M val.
Variable deny : bool.
Variable fields : list (str * ty).
(** a field of the text: a declared one with its value, or one to be skipped *)
Definition field_value (c : nat) (k : str) (v : option val) (t : str) : Prop :=
  match v with
  | Some v => exists tk, assoc k fields = Some tk /\ good (value_of tk) c t v
  | None => assoc k fields = None /\ deny = false /\ exists x, good any_value c t x
  end.
Inductive good_field (c : nat) : str * option val -> str -> Prop :=
  | gf k tk v tv w w' : ident_lit tk k -> layout w -> layout w' -> field_value c k v tv ->
      good_field c (k, v) (tk ++ w ++ c_colon :: w' ++ tv).
Definition known (l : list (str * option val)) : list (str * val) :=
  flat_map (fun p => match snd p with Some v => [(fst p, v)] | None => [] end) l.
Lemma good_field_opens c p t : good_field c p t -> forall r, opens (t ++ r).
Proof. intros [k tk v tv w w' HK _ _ _] r. rewrite <- app_assoc. eapply ident_opens; eassumption. Qed.
Lemma tr_field_key n c t k : ident_lit t k -> (assoc k fields = None -> deny = false) ->
  tr (field_key deny fields) n n c t ident_end k.
Proof.
  intros H HD. unfold field_key. eapply tr_bind_l; [apply tr_ident; exact H| |auto].
  destruct (assoc k fields); [apply tr_ret|]. rewrite HD by reflexivity. apply tr_ret.
Qed.
Lemma tr_field c p tp w1 t2 (D : str -> Prop) b acc had' w0 fuel :
  good_field c p tp -> layout w0 -> (snd p <> None -> assoc (fst p) acc = None) ->
  layout w1 -> (forall w2, layout w2 -> tr comma false false (S c) (w2 ++ t2) D b) -> (forall r, D r -> closing (t2 ++ r)) ->
  forall res t3 D3, tr (struct_loop value_of deny fields fuel (known [p] ++ acc) b) false false (S c) t3 D3 res ->
  (forall r, D3 r -> D (t3 ++ r)) -> had' = true ->
  tr (struct_loop value_of deny fields (S fuel) acc had') false false (S c) (w0 ++ tp ++ w1 ++ t2 ++ t3) D3 res.
Proof.
  intros [k tk v tv w w' HK L L' FV] L0 NA L1 CM HD res t3 D3 NX HD3 ->. cbn [fst snd] in NA. cbn [struct_loop].
  eapply tr_text; [eapply (tr_bind _ _ false false false (S c) (w0 ++ tk) ((w ++ c_colon :: w' ++ tv ++ w1 ++ t2) ++ t3) ident_end D3 (Some k))|texts].
  - apply tr_key; [cbn; tauto|assumption|intros r; eapply ident_opens; exact HK|]. apply tr_field_key; [assumption|].
    destruct v as [v|]; cbn [field_value] in FV; [destruct FV as (? & FV & _); congruence|now intros _].
  - destruct v as [v|]; cbn [field_value] in FV.
    + destruct FV as (ft & -> & G). rewrite NA by discriminate. cbn [known flat_map snd fst app] in NX.
      refine (tr_bind _ _ false false false (S c) _ t3 D D3 (v, b) _ _ NX HD3). apply tr_colon; auto.
    + destruct FV as (-> & _ & x & G). cbn [known flat_map snd fst app] in NX.
      refine (tr_bind _ _ false false false (S c) _ t3 D D3 (x, b) _ _ NX HD3). apply tr_colon; auto.
  - intros r _. rewrite <- !app_assoc. apply delim_ident_end, layout_delim; [assumption|]. cbn. tauto.
Qed.
Lemma known_app a b : known (a ++ b) = known a ++ known b.
Proof. apply flat_map_app. Qed.
Lemma assoc_none {A} k (l : list (str * A)) : ~ In k (map fst l) -> assoc k l = None.
Proof.
  induction l as [|[k' a] l IH]; [reflexivity|]. cbn. intros N. destruct (str_eqb k k') eqn:EQ.
  - apply str_eqb_eq in EQ. exfalso. apply N. now left.
  - apply IH. tauto.
Qed.
Lemma assoc_in {A} k (a : A) l : NoDup (map fst l) -> In (k, a) l -> assoc k l = Some a.
Proof.
  induction l as [|[k' a'] l IH]; [intros _ []|]. cbn. intros ND [H|H].
  - injection H as -> ->. now rewrite str_eqb_refl.
  - inversion ND as [|? ? N1 N2]; subst. destruct (str_eqb k k') eqn:EQ; [|now apply IH].
    apply str_eqb_eq in EQ as ->. exfalso. apply N1. now apply (in_map fst _ _ H).
Qed.
Lemma known_fst l : forall k, In k (map fst (known l)) -> In k (map fst l).
Proof.
  induction l as [|[k' [v|]] l IH]; intros k; cbn; auto. intros [H|H]; auto.
Qed.
Lemma tr_struct_loop c l t : items (good_field c) l t ->
  forall fuel w0 had acc, layout w0 -> (length l < fuel)%nat -> (had = true \/ l = []) ->
  (forall k, In k (map fst acc) -> ~ In k (map fst (known l))) -> NoDup (map fst (known l)) ->
  tr (struct_loop value_of deny fields fuel acc had) false false (S c) (w0 ++ t) (begins c_rp) (rev (known l) ++ acc).
Proof.
  assert (C : closer c_rp) by (cbn; tauto).
  induction 1 as [|p t w G L|p t w w' l ts G L L' I IH]; intros [|fuel] w0 had acc L0 F H NA ND; cbn [length] in F; try lia.
  - rewrite app_nil_r. cbn [struct_loop]. eapply tr_bind_l; [apply tr_no_key; assumption|apply tr_ret|auto].
  - destruct H as [->|H]; [|discriminate].
    eapply tr_text; [eapply (tr_field c p t w [] (begins c_rp) false acc true w0 fuel); auto|].
    + intros SP. apply assoc_none. intros IN. apply (NA _ IN). destruct p as [k [v|]]; [now left|contradiction].
    + intros w2 L2. rewrite app_nil_r. apply tr_no_comma; assumption.
    + intros r. apply closing_begins. cbn. tauto.
    + destruct fuel as [|fuel]; [lia|]. cbn [struct_loop].
      eapply tr_bind_l; [apply (tr_no_key c_rp _ false (S c) [] C l_nil)| |auto].
      replace (rev (known [p]) ++ acc) with (known [p] ++ acc); [apply tr_ret|]. now destruct p as [k [v|]].
    + auto.
    + texts.
  - destruct H as [->|H]; [|discriminate].
    assert (EK : known (p :: l) = known [p] ++ known l) by (change (p :: l) with ([p] ++ l); apply known_app).
    rewrite EK, map_app in ND, NA.
    eapply tr_text; [eapply (tr_field c p t w (c_comma :: w') solid true acc true w0 fuel); auto|].
    + intros SP. apply assoc_none. intros IN. apply (NA _ IN). destruct p as [k [v|]]; [now left|contradiction].
    + intros w2 L2. apply tr_comma; assumption.
    + intros r _. cbn. tauto.
    + assert (EQ : rev (known (p :: l)) ++ acc = rev (known l) ++ known [p] ++ acc).
      { rewrite EK, rev_app_distr, <- app_assoc. f_equal. now destruct p as [k [v|]]. }
      rewrite EQ. apply (IH fuel [] true); [constructor|lia|now left| |].
      * intros k IN. rewrite map_app in IN. apply in_app_or in IN as [IN|IN].
        -- intros IN2. destruct p as [k' [v|]]; [|destruct IN]. destruct IN as [<-|[]]. inversion ND; subst. contradiction.
        -- intros IN2. apply (NA k IN). apply in_or_app. now right.
      * destruct p as [k' [v|]]; [now inversion ND|exact ND].
    + intros r B. eapply items_solid; [|exact I|now apply closer_solid with c_rp]. apply good_field_opens.
    + texts.
Qed.

Variable is_option : ty -> bool.
(** the value of every declared field *)
Definition collected (acc : list (str * val)) (ft : str * ty) (fv : str * val) : Prop :=
  fst ft = fst fv /\
  match assoc (fst ft) acc with
  | Some v => snd fv = v
  | None => is_option (snd ft) = true /\ snd fv = VNone
  end.
Lemma tr_collect n c acc fs : forall fl, Forall2 (collected acc) fl fs -> tr (collect is_option fl acc) n n c [] anything fs.
Proof.
  induction 1 as [|[f ft] [f' v] fl fs [EQ H] F IH]; cbn [collect]; [apply tr_ret|]. cbn [fst snd] in *. subst f'.
  eapply tr_bind_l with (D1 := anything) (a := v); [| |now intros].
  - destruct (assoc f acc); [subst v; apply tr_ret|]. destruct H as [-> ->]. apply tr_ret.
  - eapply tr_bind_l with (D1 := anything); [exact IH|apply tr_ret|now intros].
Qed.
Lemma tr_struct_body c l t w0 fs : items (good_field c) l t -> layout w0 -> NoDup (map fst (known l)) ->
  Forall2 (collected (rev (known l))) fields fs ->
  tr (struct_body value_of deny fields is_option) false false (S c) (w0 ++ t) (begins c_rp) fs.
Proof.
  intros I L0 ND F. unfold struct_body. apply tr_src. intros r B.
  eapply tr_bind_l with (D1 := begins c_rp); [apply (tr_struct_loop c l t I (2 + length ((w0 ++ t) ++ r)) w0 true [] L0)| |].
  - assert (H := items_length _ _ _ (good_field_opens c) I). rewrite !app_length. unfold str, char in *. lia.
  - now left.
  - intros k [].
  - assumption.
  - rewrite app_nil_r. eapply tr_D; [now apply tr_collect|now intros].
  - now intros r' ->.
Qed.
End Fields.

(** ** Brackets *)
Lemma tr_de_seq {A} (body : M A) n c tb a : tr body false false c tb (begins c_rb) a ->
  tr (de_seq body) n false (S c) (c_lb :: tb ++ [c_rb]) anything a.
Proof.
  intros H. unfold de_seq. eapply tr_bind_r with (D1 := anything); [apply tr_nt| |now intros].
  apply (tr_bind _ _ false false false (S c) [c_lb] (tb ++ [c_rb]) anything anything true); [apply tr_char| |now intros].
  apply (tr_bind _ _ false false false (S c) tb [c_rb] (begins c_rb) anything a); [now apply tr_guard| |intros r _; now exists r].
  eapply tr_bind_r with (D1 := solid); [apply (tr_ws [] false (S c) l_nil)| |intros r _; apply solid_char; reflexivity || discriminate].
  eapply tr_bind_l with (D1 := anything); [apply tr_char|apply tr_ret|now intros].
Qed.
Lemma tr_de_map {A} (body : M A) n c tb a : tr body false false c tb (begins c_rc) a ->
  tr (de_map body) n false (S c) (c_lc :: tb ++ [c_rc]) anything a.
Proof.
  intros H. unfold de_map. eapply tr_bind_r with (D1 := anything); [apply tr_nt| |now intros].
  apply (tr_bind _ _ false false false (S c) [c_lc] (tb ++ [c_rc]) anything anything true); [apply tr_char| |now intros].
  apply (tr_bind _ _ false false false (S c) tb [c_rc] (begins c_rc) anything a); [now apply tr_guard| |intros r _; now exists r].
  eapply tr_bind_r with (D1 := solid); [apply (tr_ws [] false (S c) l_nil)| |intros r _; apply solid_char; reflexivity || discriminate].
  eapply tr_bind_l with (D1 := anything); [apply tr_char|apply tr_ret|now intros].
Qed.
(** with the parentheses, or without them right inside a variant *)
Definition parens (n : bool) (t : str) : str := if n then t else c_lp :: t ++ [c_rp].
Definition after_parens (n : bool) (r : str) : Prop := if n then begins c_rp r else True.
Lemma tr_open {A} (n : bool) c (k : bool -> M A) t (D : str -> Prop) a : tr (k true) n false c t D a ->
  tr (b <- (if n then ret true else consume_char c_lp) ;; k b) n false c (if n then t else c_lp :: t) D a.
Proof.
  intros H. destruct n.
  - eapply tr_bind_r with (D1 := anything); [apply tr_ret|exact H|now intros].
  - apply (tr_bind _ _ false false false c [c_lp] t anything D true); [apply tr_char|exact H|now intros].
Qed.
Lemma tr_close_paren {A} (n : bool) c e0 w (v : A) : layout w ->
  tr (skip_ws ;;; (c <- (if n then ret true else consume_char c_rp) ;; if c then ret v else fail e0)) false false c
     (if n then w else w ++ [c_rp]) (after_parens n) v.
Proof.
  intros L. destruct n; cbn [after_parens].
  - eapply tr_bind_l with (D1 := solid); [now apply tr_ws| |intros r; apply closer_solid; cbn; tauto].
    eapply tr_bind_l with (D1 := anything); [apply tr_ret|apply tr_ret|now intros].
  - refine (tr_bind _ _ false false false c w [c_rp] solid _ tt _ _ _ _); [now apply tr_ws| |intros r _; apply solid_char; reflexivity || discriminate].
    eapply tr_bind_l with (D1 := anything); [apply tr_char|apply tr_ret|now intros].
Qed.
Lemma tr_de_tuple {A} (body : M A) n c tb w a (D : str -> Prop) : tr body false false c tb D a -> layout w ->
  (forall r, begins c_rp r -> D (w ++ r)) ->
  tr (de_tuple body) n false (S c) (parens n (tb ++ w)) (after_parens n) a.
Proof.
  intros H L HD. unfold de_tuple. apply tr_get. intros s _ ->.
  eapply tr_text; [eapply (tr_open n (S c) _ (tb ++ (if n then w else w ++ [c_rp])))|unfold parens; destruct n; texts]. cbn iota.
  eapply tr_bind_r with (D1 := anything); [apply tr_nt| |now intros].
  refine (tr_bind _ _ false false false (S c) tb _ D _ a _ _ (tr_close_paren n (S c) _ w a L) _); [now apply tr_guard|].
  intros r AP. destruct n; cbn [after_parens] in AP; [now apply HD|]. rewrite <- app_assoc. apply HD. now exists r.
Qed.
Lemma tr_struct_after_name {A} name (body : M A) n c tb w a (D : str -> Prop) : tr body false false c tb D a -> layout w ->
  (forall r, begins c_rp r -> D (w ++ r)) ->
  tr (struct_after_name name body) n false (S c) (parens n (tb ++ w)) (after_parens n) a.
Proof.
  intros H L HD. unfold struct_after_name. apply tr_get. intros s _ ->.
  eapply tr_text; [eapply (tr_open n (S c) _ (tb ++ (if n then w else w ++ [c_rp])))|unfold parens; destruct n; texts]. cbn iota.
  eapply tr_bind_r with (D1 := anything); [apply tr_nt| |now intros].
  refine (tr_bind _ _ false false false (S c) tb _ D _ a _ _ (tr_close_paren n (S c) _ w a L) _); [now apply tr_guard, tr_map_err|].
  intros r AP. destruct n; cbn [after_parens] in AP; [now apply HD|]. rewrite <- app_assoc. apply HD. now exists r.
Qed.
Lemma tr_name sf gap name tn : name_text e sf gap name tn -> exists t w b, tn = t ++ w /\ layout w /\ (gap = false -> w = []) /\
  (b = negb (is_nil tn)) /\ forall n c, tr (consume_struct_name name) n n c t ident_end b.
Proof.
  intros [EX|t w _ HI L G].
  - exists [], [], false. split; [reflexivity|]. split; [constructor|]. split; [auto|].
    split; [reflexivity|]. intros n c T s r J Hs D He Hn Hl. unfold consume_struct_name.
    apply wp_bind. eapply wp_ok; [rewrite check_ident_eq; reflexivity|].
    replace (ident_at [] (rest s)) with true.
    + apply wp_bind, wp_get. rewrite He, EX. apply wp_ret. repeat split; auto; apply J.
    + rewrite Hs. cbn [app]. apply ident_end_xid in D. unfold ident_at. destruct r as [|c0 r]; [reflexivity|]. cbn in *. now rewrite D.
  - exists t, w, true. split; [reflexivity|]. split; [assumption|]. split; [assumption|].
    assert (NE : name <> []) by (destruct HI; [discriminate|assumption]).
    split; [destruct HI; reflexivity|]. intros n c. apply tr_lex. intros T s r J Hs D. unfold consume_struct_name.
    apply wp_bind. eapply wp_ok; [rewrite check_ident_eq; reflexivity|].
    destruct (ident_lit_head t name r HI) as (c0 & t' & HE & XC).
    replace (ident_at [] (rest s)) with false; [|rewrite Hs, HE; unfold ident_at; cbn; now rewrite XC].
    apply wp_try. eapply wp_conseq; [apply (reads_identifier t name HI T s r J Hs D)| |intros ? ? []]. cbn beta.
    intros a' s' (-> & R' & A'). destruct name as [|c1 name]; [congruence|]. rewrite str_eqb_refl. apply wp_ret. auto.
Qed.
Lemma lp_ident_end w r : layout w -> ident_end (w ++ c_lp :: r).
Proof.
  intros L. destruct (layout_head w L) as [->|(c & w' & -> & H)].
  - cbn. unfold is_ident_raw_char. rewrite xid_continue_ascii by reflexivity. repeat split; discriminate.
  - apply delim_ident_end. cbn. destruct H as [H| ->]; auto.
Qed.
End Exts.
End WithEnv.
