(** Reading documents with raw values in them. *)
From Coq Require Import String Ascii NArith ZArith Lia Bool List Permutation.
From Coq Require Import ZifyBool ZifyNat ZifyN.
From Verif Require Import Base Facts Value Data Parse De Span Raw Wp EnvOk Layout Lit Attr LexSafe LexWs LexRead DeSafe DocRead LexDoc Fuel Limit Keep Inv LexSound Repr Accept
  Pieces Sound ReprFacts TypedRead AnyRead TypedMain RawRead.
From Verif Require SerRepr.
Import ListNotations.
Open Scope N_scope.
Open Scope list_scope.
Open Scope m_scope.

Section WithEnv.
Context {E : Env} {X : XidOk E} {FO : FloatOk E}.
Section Exts.
Variable e : exts.

(** what is known of the layout before the cursor *)
Definition lv (l : bool) (s : st) : Prop := if l then Keep.ready s else tracked s.
Lemma lv_tracked l s : lv l s -> tracked s.
Proof. destruct l; [apply ready_tracked|auto]. Qed.
(** As [TypedRead.tr], with a property of the result, and the layout tracked *)
Definition sp {A} (l l' : bool) (m : M A) (c : nat) (t : str) (D : str -> Prop) (P : A -> Prop) : Prop :=
  forall T s r, inv T s -> lv l s -> rest s = t ++ r -> D r -> ext s = e -> nt s = false -> room c (lim s) ->
  wp m (fun a s' => P a /\ rest s' = r /\ inv T s' /\ lv l' s' /\ ext s' = e /\ nt s' = false /\ lim s' = lim s)
     (fun _ _ => False) s.

Lemma wp_both {A} (m : M A) Q Z (R : A -> st -> Prop) s : wp m Q Z s -> (forall a s', m s = Ok a s' -> R a s') ->
  wp m (fun a s' => Q a s' /\ R a s') Z s.
Proof. Transparent wp. unfold wp. Opaque wp. intros H HR. destruct (m s); auto. Qed.
Lemma sp_after {A} (m : M A) l l' c t D a : tr e m false false c t D a -> (forall s a s', lv l s -> m s = Ok a s' -> lv l' s') ->
  sp l l' m c t D (eq a).
Proof.
  intros H HL T s r J LV Hs Dr He Hn Hl. eapply wp_conseq; [apply (wp_both _ _ _ (fun _ s' => lv l' s') _ (H T s r J Hs Dr He Hn Hl)); eauto| |auto].
  cbn beta. intros a' s' ((-> & R & I & E' & N & L) & LV'). auto 10.
Qed.
Lemma sp_tr {A} (m : M A) c t D a : tr e m false false c t D a -> keeps m -> sp false false m c t D (eq a).
Proof. intros H K. apply sp_after; [exact H|]. intros s x s' TR Q. eapply keeps_ok; eassumption. Qed.
Lemma sp_pre {A} l l' (m : M A) c t D P : sp false l' m c t D P -> sp l l' m c t D P.
Proof. intros H T s r J LV. apply H; auto. now apply (lv_tracked l). Qed.
Lemma sp_post {A} l l' (m : M A) c t D P : sp l l' m c t D P -> sp l false m c t D P.
Proof.
  intros H T s r J LV Hs Dr He Hn Hl. eapply wp_conseq; [apply (H T s r); auto| |auto]. cbn beta.
  intros a s' (? & ? & ? & LV' & ?). repeat (split; [assumption|]). split; [now apply (lv_tracked l')|assumption].
Qed.
Lemma sp_P {A} l l' (m : M A) c t D (P Q : A -> Prop) : sp l l' m c t D P -> (forall a, P a -> Q a) -> sp l l' m c t D Q.
Proof.
  intros H HP T s r J LV Hs Dr He Hn Hl. eapply wp_conseq; [apply (H T s r); auto| |auto]. cbn beta.
  intros a s' (? & ?). auto.
Qed.
Lemma sp_D {A} l l' (m : M A) c t (D D' : str -> Prop) P : sp l l' m c t D P -> (forall r, D' r -> D r) -> sp l l' m c t D' P.
Proof. intros H HD T s r J LV Hs Dr. now apply H; auto. Qed.
Lemma sp_text {A} l l' (m : M A) c t t' D P : sp l l' m c t D P -> t = t' -> sp l l' m c t' D P.
Proof. now intros H <-. Qed.
Lemma sp_le {A} l l' (m : M A) c c' t D P : (c <= c')%nat -> sp l l' m c t D P -> sp l l' m c' t D P.
Proof. intros L H T s r J LV Hs Dr He Hn Hl. apply H; auto. eapply room_le; eassumption. Qed.
Lemma sp_bind {A B} l l1 l2 (m : M A) (k : A -> M B) c t1 t2 (D1 D2 : str -> Prop) P Q :
  sp l l1 m c t1 D1 P -> (forall a, P a -> sp l1 l2 (k a) c t2 D2 Q) -> (forall r, D2 r -> D1 (t2 ++ r)) ->
  sp l l2 (bind m k) c (t1 ++ t2) D2 Q.
Proof.
  intros H1 H2 HD T s r J LV Hs Dr He Hn Hl. rewrite <- app_assoc in Hs. apply wp_bind.
  eapply wp_conseq; [apply (H1 T s (t2 ++ r)); auto| |auto]. cbn beta.
  intros a s' (PA & R' & J' & LV' & E' & N' & L').
  eapply wp_conseq; [apply (H2 a PA T s' r); auto; now rewrite L'| |auto]. cbn beta.
  intros b s2 (PB & R2 & J2 & LV2 & E2 & N2 & L2). repeat (split; [assumption|]). congruence.
Qed.
Lemma sp_bind_l {A B} l l1 l2 (m : M A) (k : A -> M B) c t (D1 D2 : str -> Prop) P Q :
  sp l l1 m c t D1 P -> (forall a, P a -> sp l1 l2 (k a) c [] D2 Q) -> (forall r, D2 r -> D1 r) -> sp l l2 (bind m k) c t D2 Q.
Proof. intros H1 H2 HD. eapply sp_text; [eapply (sp_bind l l1 l2 m k c t []); eauto|apply app_nil_r]. Qed.
Lemma sp_bind_r {A B} l l1 l2 (m : M A) (k : A -> M B) c t (D1 D2 : str -> Prop) P Q :
  sp l l1 m c [] D1 P -> (forall a, P a -> sp l1 l2 (k a) c t D2 Q) -> (forall r, D2 r -> D1 (t ++ r)) -> sp l l2 (bind m k) c t D2 Q.
Proof. intros H1 H2 HD. now eapply (sp_bind l l1 l2 m k c [] t); eauto. Qed.
Lemma sp_ret {A} (a : A) l c D (P : A -> Prop) : P a -> sp l l (ret a) c [] D P.
Proof. intros H T s r J LV Hs Dr He Hn Hl. apply wp_ret. cbn [app] in Hs. auto 10. Qed.
Lemma sp_map {A B} l l' (m : M A) (f : A -> B) c t D (P : A -> Prop) (Q : B -> Prop) : sp l l' m c t D P -> (forall a, P a -> Q (f a)) ->
  sp l l' (x <- m ;; ret (f x)) c t D Q.
Proof. intros H HQ. eapply sp_bind_l; [exact H| |]; [intros a PA; apply sp_ret; auto|auto]. Qed.
Lemma sp_get {B} l l' (k : st -> M B) c t D Q : (forall s, ext s = e -> nt s = false -> sp l l' (k s) c t D Q) -> sp l l' (bind get k) c t D Q.
Proof. intros H T s r J LV Hs Dr He Hn Hl. apply wp_bind, wp_get. now apply (H s He Hn T s r). Qed.
Lemma lv_lim l n s : lv l (set_lim n s) = lv l s.
Proof. now destruct l. Qed.
Lemma sp_nt l c D : sp l l (modify (set_nt false)) c [] D (fun _ => True).
Proof. intros T s r J LV Hs Dr He Hn Hl. apply wp_modify. cbn [app] in Hs. repeat (split; [assumption || exact Logic.I|]). split; [now destruct l|]. auto. Qed.
Lemma sp_map_err {A} f l l' (m : M A) c t D P : sp l l' m c t D P -> sp l l' (map_err f m) c t D P.
Proof.
  intros H T s r J LV Hs Dr He Hn Hl. apply wp_map_err. eapply wp_conseq; [apply (H T s r); auto|auto|auto].
Qed.
Lemma sp_guard_with {A} b l l' (m : M A) c t D P : sp l l' m c t D P -> sp l l' (guard_with b m) (S c) t D P.
Proof.
  intros H T s r J LV Hs Dr He Hn Hl. Transparent wp. unfold wp, guard_with. Opaque wp.
  destruct (lim s) as [[|n]|] eqn:L; cbn [room] in Hl; [lia| |].
  - assert (W := H T (set_lim (Some n) s) r J). rewrite lv_lim in W. specialize (W LV Hs Dr He Hn). cbn [lim set_lim] in W.
    assert (RM : room c (Some n)) by (cbn; lia). specialize (W RM). Transparent wp. unfold wp in W. Opaque wp.
    destruct (m (set_lim (Some n) s)) as [a' s'|? s'| |]; try contradiction.
    destruct W as (PA & R' & J' & LV' & E' & N' & L'). rewrite lv_lim. repeat (split; [assumption|]). cbn [lim set_lim]. rewrite L'. reflexivity.
  - assert (RM : room c (lim s)) by now rewrite L. assert (W := H T s r J LV Hs Dr He Hn RM).
    Transparent wp. unfold wp in W. Opaque wp. destruct (m s) as [a' s'|? s'| |]; try contradiction. now rewrite L in W.
Qed.
Lemma sp_src {B} l l' (k : str -> M B) c t (D : str -> Prop) Q : (forall r, D r -> sp l l' (k (t ++ r)) c t (fun r' => r' = r) Q) ->
  sp l l' (bind src k) c t D Q.
Proof.
  intros H T s r J LV Hs Dr He Hn Hl. Transparent wp. unfold wp, bind, src. Opaque wp. rewrite Hs.
  assert (W := H r Dr T s r J LV Hs eq_refl He Hn Hl). Transparent wp. exact W. Opaque wp.
Qed.

(** the text after a value, as in [trw], where only layout stands before a comma,
    a colon, a closing bracket or the end *)
Definition upto (r0 x : str) : Prop := exists w, layout w /\ x = w ++ r0.
Lemma upto_remainder r0 : closing r0 -> remainder (upto r0).
Proof. intros C. right. exists r0. split; [exact C|]. intros x. reflexivity. Qed.
Definition spw {A} (m : M A) (c : nat) (t : str) (P : A -> Prop) : Prop :=
  forall T s r r0, closing r0 -> upto r0 r -> inv T s -> Keep.ready s -> rest s = t ++ r -> ext s = e -> nt s = false -> room c (lim s) ->
  wp m (fun a s' => P a /\ upto r0 (rest s') /\ inv T s' /\ tracked s' /\ ext s' = e /\ nt s' = false /\ lim s' = lim s)
     (fun _ _ => False) s.
Lemma spw_sp {A} l (m : M A) c t P : sp true l m c t delim P -> spw m c t P.
Proof.
  intros H T s r r0 HR HK J LV Hs He Hn Hl.
  eapply wp_conseq; [apply (H T s r); auto; eapply remainder_delim; [apply upto_remainder, HR|exact HK]| |auto]. cbn beta.
  intros a' s' (PA & -> & J' & LV' & ?). repeat (split; [assumption|]). split; [now apply (lv_tracked l)|assumption].
Qed.
Lemma spw_trw {A} (m : M A) c t a : trw e m c t a -> keeps m -> spw m c t (eq a).
Proof.
  intros H KP T s r r0 HR HK J LV Hs He Hn Hl.
  eapply wp_conseq; [apply (wp_both _ _ _ (fun _ s' => tracked s') _ (H T s r _ (upto_remainder _ HR) HK J Hs He Hn Hl))| |auto].
  - intros a0 s' Q. eapply keeps_ok; [exact KP|apply ready_tracked, LV|exact Q].
  - cbn beta. intros a' s' ((-> & ? & ? & ? & ? & ?) & TR). auto 10.
Qed.
Lemma spw_bind {A B} (m : M A) (k : A -> M B) l2 c t w t2 (D : str -> Prop) P Q :
  spw m c t P -> layout w -> (forall r, D r -> closing (t2 ++ r)) ->
  (forall a w', P a -> layout w' -> sp false l2 (k a) c (w' ++ t2) D Q) -> sp true l2 (bind m k) c (t ++ w ++ t2) D Q.
Proof.
  intros H L HD H2 T s r J LV Hs Dr He Hn Hl. apply wp_bind.
  eapply wp_conseq; [apply (H T s (w ++ t2 ++ r) (t2 ++ r)); auto| |auto].
  - now exists w.
  - rewrite Hs. texts.
  - cbn beta. intros a' s' (PA & (w' & L' & R') & J' & LV' & E' & N' & LM').
    eapply wp_conseq; [apply (H2 a' w' PA L' T s' r); auto; [now rewrite R', <- app_assoc|now rewrite LM']| |auto]. cbn beta.
    intros b' s2 (PB & R2 & J2 & LV2 & E2 & N2 & L2). repeat (split; [assumption|]). congruence.
Qed.
Lemma spw_P {A} (m : M A) c t (P Q : A -> Prop) : spw m c t P -> (forall a, P a -> Q a) -> spw m c t Q.
Proof.
  intros H HP T s r r0 HR HK J LV Hs He Hn Hl. eapply wp_conseq; [apply (H T s r r0); auto| |auto]. cbn beta. intros a s' (? & ?). auto.
Qed.
Lemma spw_map {A B} (m : M A) (f : A -> B) c t (P : A -> Prop) (Q : B -> Prop) : spw m c t P -> (forall a, P a -> Q (f a)) ->
  spw (x <- m ;; ret (f x)) c t Q.
Proof.
  intros H HQ T s r r0 HR HK J LV Hs He Hn Hl. apply wp_bind. eapply wp_conseq; [apply (H T s r r0); auto| |auto]. cbn beta.
  intros a' s' (PA & R). apply wp_ret. auto.
Qed.
Lemma spw_le {A} (m : M A) c c' t P : (c <= c')%nat -> spw m c t P -> spw m c' t P.
Proof. intros L H T s r r0 HR HK J LV Hs He Hn Hl. apply (H T s r r0); auto. eapply room_le; eassumption. Qed.
Lemma spw_guard_with {A} b (m : M A) c t P : spw m c t P -> spw (guard_with b m) (S c) t P.
Proof.
  intros H T s r r0 HR HK J LV Hs He Hn Hl. Transparent wp. unfold wp, guard_with. Opaque wp.
  destruct (lim s) as [[|l]|] eqn:L; cbn [room] in Hl; [lia| |].
  - assert (W := H T (set_lim (Some l) s) r r0 HR HK J LV Hs He Hn). cbn [lim set_lim] in W.
    assert (RM : room c (Some l)) by (cbn; lia). specialize (W RM). Transparent wp. unfold wp in W. Opaque wp.
    destruct (m (set_lim (Some l) s)) as [a' s'|? s'| |]; try contradiction.
    destruct W as (PA & R' & J' & LV' & E' & N' & L'). repeat (split; [assumption|]). cbn [lim set_lim]. rewrite L'. reflexivity.
  - assert (RM : room c (lim s)) by now rewrite L. assert (W := H T s r r0 HR HK J LV Hs He Hn RM).
    Transparent wp. unfold wp in W. Opaque wp. destruct (m s) as [a' s'|? s'| |]; try contradiction. now rewrite L in W.
Qed.
Lemma spw_map_err {A} f (m : M A) c t P : spw m c t P -> spw (map_err f m) c t P.
Proof.
  intros H T s r r0 HR HK J LV Hs He Hn Hl. apply wp_map_err. eapply wp_conseq; [apply (H T s r r0); auto|auto|auto].
Qed.

(** ** Tokens *)
Definition yes {A} (a : A) : A -> Prop := eq a.
Lemma sp_ws w c : layout w -> sp false true skip_ws c w solid (yes tt).
Proof. intros L. apply sp_after; [now apply tr_ws|]. intros s a s' TR Q. eapply skip_ws_ready; eassumption. Qed.
Lemma sp_char x c : sp false false (consume_char x) c [x] anything (yes true).
Proof. apply sp_tr; [apply tr_char|]. auto with keeps. Qed.
Lemma sp_has_more term w c : closer term -> layout w -> sp false true (has_element term true) c w opens (yes true).
Proof. intros C L. apply sp_after; [now apply tr_has_more|]. intros s a s' TR Q. eapply has_element_ready; eassumption. Qed.
Lemma sp_has_end term w had c : closer term -> layout w -> sp false false (has_element term had) c w (begins term) (yes false).
Proof. intros C L. apply sp_tr; [now apply tr_has_end|]. auto with keeps. Qed.
Lemma sp_comma w w' c : layout w -> layout w' -> sp false false comma c (w ++ c_comma :: w') solid (yes true).
Proof. intros L L'. apply sp_tr; [now apply tr_comma|]. auto with keeps. Qed.
Lemma sp_no_comma w c term : closer term -> layout w -> sp false false comma c w (begins term) (yes false).
Proof. intros C L. apply sp_tr; [now apply tr_no_comma|]. auto with keeps. Qed.

(** ** Comma separated lists *)
Definition goodp {A} (m : M A) (c : nat) (t : str) (P : A -> Prop) : Prop := (forall r, opens (t ++ r)) /\ spw m c t P.
Definition fits {A} (P : A -> Prop) (a : A) : Prop := P a.
Lemma sp_elem_comma {A} term (m : M A) c w0 t w w' P : closer term -> layout w0 -> goodp m c t P -> layout w -> layout w' ->
  sp false false (next_element term m true) (S c) (w0 ++ t ++ w ++ c_comma :: w') solid (fun p => snd p = true /\ exists a, fst p = Some a /\ P a).
Proof.
  intros C L0 [O G] L L'. unfold next_element.
  eapply (sp_bind false true false _ _ (S c) w0 (t ++ w ++ c_comma :: w') opens solid); [now apply sp_has_more| |intros r _; rewrite <- app_assoc; apply O].
  intros h <-. eapply (spw_bind _ _ false (S c) t w (c_comma :: w') solid P); [now apply spw_guard_with|assumption|intros r _; cbn; tauto|].
  intros a w1 PA L1. eapply sp_bind_l; [apply sp_comma; assumption| |]; [|auto]. intros b <-. apply sp_ret. cbn. eauto.
Qed.
Lemma sp_elem_last {A} term (m : M A) c w0 t w P : closer term -> layout w0 -> goodp m c t P -> layout w ->
  sp false false (next_element term m true) (S c) (w0 ++ t ++ w) (begins term) (fun p => snd p = false /\ exists a, fst p = Some a /\ P a).
Proof.
  intros C L0 [O G] L. unfold next_element.
  eapply (sp_bind false true false _ _ (S c) w0 (t ++ w) opens (begins term)); [now apply sp_has_more| |intros r _; rewrite <- app_assoc; apply O].
  intros h <-. eapply sp_text; [eapply (spw_bind _ _ false (S c) t w [] (begins term) P); [now apply spw_guard_with|assumption| |]|now rewrite app_nil_r].
  - intros r. apply closing_begins. cbn in *. tauto.
  - intros a w1 PA L1. rewrite app_nil_r. eapply sp_bind_l; [apply (sp_no_comma w1 (S c) term C L1)| |]; [|auto]. intros b <-. apply sp_ret. cbn. eauto.
Qed.
Lemma sp_elem_none {A} term (m : M A) had c w0 : closer term -> layout w0 ->
  sp false false (next_element term m had) c w0 (begins term) (yes (None, had)).
Proof.
  intros C L0. unfold next_element. eapply sp_bind_l; [apply (sp_has_end term w0 had c C L0)| |]; [|auto]. intros h <-. now apply sp_ret.
Qed.
Lemma goodp_solid {A} (m : M A) c l t r : items (fun P t => goodp m c t P) l t -> solid r -> solid (t ++ r).
Proof. intros I. eapply items_solid; [|exact I]. now intros a' t' [O _]. Qed.
Lemma sp_seq_loop {A} term (m : M A) c l t : closer term -> items (fun P t => goodp m c t P) l t ->
  forall fuel w0 had, layout w0 -> (length l < fuel)%nat -> (had = true \/ l = []) ->
  sp false false (seq_loop fuel term m had) (S c) (w0 ++ t) (begins term) (Forall2 fits l).
Proof.
  intros C. induction 1 as [|P t w G L|P t w w' l ts G L L' I IH]; intros [|fuel] w0 had L0 F H; cbn [length] in F; try lia; cbn [seq_loop].
  - rewrite app_nil_r. eapply sp_bind_l; [apply sp_elem_none; assumption| |]; [|auto]. intros p <-. apply sp_ret. constructor.
  - destruct H as [->|H]; [|discriminate].
    eapply sp_bind_l; [eapply (sp_elem_last term m c w0 t w P); eassumption| |]; [|auto]. intros [x b] (Q & a & Q' & PA). cbn in Q, Q'. subst b x. cbn iota.
    destruct fuel as [|fuel]; [lia|]. cbn [seq_loop].
    eapply sp_bind_l with (D1 := begins term) (P := yes []); [| |auto].
    + eapply sp_bind_l; [apply (sp_elem_none term m false (S c) [] C l_nil)| |]; [|auto]. intros p <-. now apply sp_ret.
    + intros q <-. apply sp_ret. repeat constructor. exact PA.
  - destruct H as [->|H]; [|discriminate].
    eapply sp_text; [eapply (sp_bind false false false _ _ (S c) (w0 ++ t ++ w ++ c_comma :: w') ts solid (begins term))|texts].
    + now apply sp_elem_comma with (P := P).
    + intros [x b] (Q & a & Q' & PA). cbn in Q, Q'. subst b x. cbn iota.
      eapply sp_bind_l with (D1 := begins term); [apply (IH fuel [] true l_nil)| |]; [lia|now left| |auto].
      intros q FQ. apply sp_ret. constructor; assumption.
    + intros r B. eapply goodp_solid; [exact I|now apply closer_solid with term].
Qed.
Lemma sp_seq_all {A} term (m : M A) c l t w0 : closer term -> items (fun P t => goodp m c t P) l t -> layout w0 ->
  sp false false (seq_all term m) (S c) (w0 ++ t) (begins term) (Forall2 fits l).
Proof.
  intros C I L0. unfold seq_all. apply sp_src. intros r B. eapply sp_D; [apply sp_seq_loop; auto|].
  - assert (H := items_length _ _ _ (fun a t (H : goodp m c t a) => proj1 H) I). rewrite !app_length. unfold str, char in *. lia.
  - now intros r' ->.
Qed.
Lemma sp_tuple_elems {A} c (ps : list (M A * (A -> Prop))) t : items (fun p t => goodp (fst p) c t (snd p)) ps t ->
  forall w0 had i, layout w0 -> (had = true \/ ps = []) ->
  exists w1 t1 (D : str -> Prop), w0 ++ t = t1 ++ w1 /\ layout w1 /\ (ps <> [] -> w1 = []) /\ (forall r, begins c_rp r -> D (w1 ++ r)) /\
  sp false false (tuple_elems (map fst ps) i had) (S c) t1 D (Forall2 fits (map snd ps)).
Proof.
  assert (C : closer c_rp) by (cbn; tauto).
  induction 1 as [|[m P] t w G L|[m P] t w w' l ts G L L' I IH]; intros w0 had i L0 H; cbn [map tuple_elems fst snd] in *.
  - exists w0, [], anything. rewrite app_nil_r. split; [reflexivity|]. split; [assumption|]. split; [congruence|]. split; [now intros|]. apply sp_ret. constructor.
  - destruct H as [->|H]; [|discriminate]. exists [], (w0 ++ t ++ w), (begins c_rp). rewrite app_nil_r. split; [reflexivity|]. split; [constructor|]. split; [reflexivity|]. split; [auto|].
    eapply sp_bind_l; [now apply (sp_elem_last c_rp m c w0 t w P)| |auto]. intros [x b] (Q & a & Q' & PA). cbn in Q, Q'. subst b x. cbn iota.
    eapply sp_bind_l with (D1 := anything) (P := yes []); [now apply sp_ret| |now intros]. intros q <-. apply sp_ret. repeat constructor. exact PA.
  - destruct H as [->|H]; [|discriminate]. destruct l as [|p l].
    + inversion I; subst. exists [], (w0 ++ t ++ w ++ c_comma :: w'), (begins c_rp). rewrite !app_nil_r. split; [reflexivity|]. split; [constructor|]. split; [reflexivity|]. split; [auto|].
      eapply sp_bind_l; [now apply sp_elem_comma with (P := P)| |intros r; now apply closer_solid]. intros [x b] (Q & a & Q' & PA). cbn in Q, Q'. subst b x. cbn iota.
      eapply sp_bind_l with (D1 := anything) (P := yes []); [now apply sp_ret| |now intros]. intros q <-. apply sp_ret. repeat constructor. exact PA.
    + destruct (IH [] true (S i) l_nil (or_introl eq_refl)) as (w1 & t1 & D & EQ & L1 & N1 & HD & H1). rewrite N1 in * by discriminate.
      cbn [app] in EQ. rewrite app_nil_r in EQ. subst t1.
      exists [], (w0 ++ t ++ w ++ c_comma :: w' ++ ts), (begins c_rp). rewrite app_nil_r. split; [reflexivity|]. split; [constructor|]. split; [reflexivity|]. split; [auto|].
      eapply sp_text; [eapply (sp_bind false false false _ _ (S c) (w0 ++ t ++ w ++ c_comma :: w') ts solid (begins c_rp))|texts].
      * now apply sp_elem_comma with (P := P).
      * intros [x b] (Q & a & Q' & PA). cbn in Q, Q'. subst b x. cbn iota.
        eapply sp_bind_l with (D1 := begins c_rp); [eapply sp_D; [exact H1|exact HD]| |auto]. intros q FQ. apply sp_ret. constructor; assumption.
      * intros r B. eapply items_solid; [|exact I|now apply closer_solid with c_rp]. now intros a' t' [O _].
Qed.

(** ** Maps and structs *)
Definition goodp_entry {A B} (mk : M A) (mv : M B) (c : nat) : (A -> Prop) * (B -> Prop) -> str -> Prop :=
  entry (fun P t => goodp mk c t P) (fun P t => goodp mv c t P).
Lemma sp_next_value {A} (m : M A) c w w' t w1 t2 P (D : str -> Prop) b : layout w -> layout w' -> goodp m c t P ->
  layout w1 -> (forall w2, layout w2 -> sp false false comma (S c) (w2 ++ t2) D (yes b)) -> (forall r, D r -> closing (t2 ++ r)) ->
  sp false false (next_value m) (S c) (w ++ c_colon :: w' ++ t ++ w1 ++ t2) D (fun p => snd p = b /\ P (fst p)).
Proof.
  intros L L' [O G] L1 CM HD. unfold next_value.
  refine (sp_bind false true false _ _ (S c) w (c_colon :: w' ++ t ++ w1 ++ t2) solid D _ _ (sp_ws w (S c) L) _ _);
    [|intros r _; apply solid_char; reflexivity || discriminate]. intros u _.
  eapply (sp_bind true false false _ _ (S c) [c_colon] (w' ++ t ++ w1 ++ t2) anything D); [apply sp_pre, sp_char| |now intros]. intros x <-. cbv iota.
  refine (sp_bind false true false _ _ (S c) w' (t ++ w1 ++ t2) solid D _ _ (sp_ws w' (S c) L') _ _);
    [|intros r _; rewrite <- app_assoc; apply opens_solid, O]. intros u' _.
  eapply (spw_bind _ _ false (S c) t w1 t2 D P); [now apply spw_guard_with|assumption|assumption|].
  intros a w2 PA L2. eapply sp_bind_l; [now apply CM| |auto]. intros b' <-. apply sp_ret. auto.
Qed.
Lemma spw_next_key {A} term (m : M A) c w0 t P : closer term -> layout w0 -> goodp m c t P ->
  forall B (k : option A -> M B) l2 w t2 (D : str -> Prop) Q, layout w -> (forall r, D r -> closing (t2 ++ r)) ->
  (forall a w', P a -> layout w' -> sp false l2 (k (Some a)) (S c) (w' ++ t2) D Q) ->
  sp false l2 (bind (next_key term m true) k) (S c) (w0 ++ t ++ w ++ t2) D Q.
Proof.
  intros C L0 [O G] B k l2 w t2 D Q L HD HK.
  assert (Z : sp false l2 (h <- has_element term true ;; (if h then (x <- guard_r m ;; k (Some x)) else k None)) (S c) (w0 ++ t ++ w ++ t2) D Q).
  { eapply (sp_bind false true l2 _ _ (S c) w0 (t ++ w ++ t2) opens D); [now apply sp_has_more| |intros r _; rewrite <- app_assoc; apply O]. intros h <-.
    eapply (spw_bind _ _ l2 (S c) t w t2 D P); [now apply spw_guard_with|assumption|assumption|]. auto. }
  intros T s r J LV Hs Dr He Hn Hl. assert (W := Z T s r J LV Hs Dr He Hn Hl). Transparent wp. unfold wp, next_key, bind in *. Opaque wp.
  destruct (has_element term true s) as [h s1| | |]; auto. destruct h; [|exact W]. destruct (guard_r m s1); auto.
Qed.
Lemma sp_no_key {A} term (m : M A) had c w0 : closer term -> layout w0 ->
  sp false false (next_key term m had) c w0 (begins term) (yes None).
Proof. intros C L0. unfold next_key. eapply sp_bind_l; [apply (sp_has_end term w0 had c C L0)| |]; [|auto]. intros h <-. now apply sp_ret. Qed.
Definition fits2 {A B} (P : (A -> Prop) * (B -> Prop)) (a : A * B) : Prop := fst P (fst a) /\ snd P (snd a).
Lemma goodp_entry_opens {A B} (mk : M A) (mv : M B) c p t : goodp_entry mk mv c p t -> forall r, opens (t ++ r).
Proof. intros [k tk v tv w w' [O _] _ _ _] r. rewrite <- app_assoc. apply O. Qed.
Lemma sp_map_loop {A B} term (mk : M A) (mv : M B) c l t : closer term -> items (goodp_entry mk mv c) l t ->
  forall fuel w0 had, layout w0 -> (length l < fuel)%nat -> (had = true \/ l = []) ->
  sp false false (map_loop fuel term mk mv had) (S c) (w0 ++ t) (begins term) (Forall2 fits2 l).
Proof.
  intros C.
  induction 1 as [|a t w G L|a t w w' l ts G L L' I IH]; intros [|fuel] w0 had L0 F H; cbn [length] in F; try lia; cbn [map_loop].
  - rewrite app_nil_r. eapply sp_bind_l; [apply sp_no_key; assumption| |]; [|auto]. intros p <-. apply sp_ret. constructor.
  - destruct H as [->|H]; [|discriminate]. destruct G as [PK tk PV tv w1 w2 GK L1 L2 GV].
    eapply sp_text; [eapply (spw_next_key term mk c w0 tk PK C L0 GK _ _ false w1 (c_colon :: w2 ++ tv ++ w) (begins term))|texts]; [assumption|intros r _; cbn; tauto|].
    intros k w1' PK' L1'. eapply sp_bind_l with (D1 := begins term).
    + eapply sp_text; [apply (sp_next_value mv c w1' w2 tv w [] PV (begins term) false L1' L2 GV L)|rewrite app_nil_r; reflexivity].
      * intros w3 L3. rewrite app_nil_r. now apply sp_no_comma.
      * intros r. apply closing_begins. cbn in *. tauto.
    + intros [v b] [Q PV']. cbn [fst snd] in *. subst b. destruct fuel as [|fuel]; [lia|]. cbn [map_loop].
      eapply sp_bind_l with (D1 := begins term) (P := yes []); [| |auto].
      * eapply sp_bind_l; [apply (sp_no_key term mk false (S c) [] C l_nil)| |]; [|auto]. intros p <-. now apply sp_ret.
      * intros q <-. apply sp_ret. repeat constructor; assumption.
    + auto.
  - destruct H as [->|H]; [|discriminate]. destruct G as [PK tk PV tv w1 w2 GK L1 L2 GV].
    eapply sp_text; [eapply (spw_next_key term mk c w0 tk PK C L0 GK _ _ false w1 (c_colon :: w2 ++ tv ++ w ++ c_comma :: w' ++ ts) (begins term))|texts]; [assumption|intros r _; cbn; tauto|].
    intros k w1' PK' L1'. eapply sp_text; [eapply (sp_bind false false false _ _ (S c) (w1' ++ c_colon :: w2 ++ tv ++ w ++ c_comma :: w') ts solid (begins term))|texts].
    + apply (sp_next_value mv c w1' w2 tv w (c_comma :: w') PV solid true L1' L2 GV L).
      * intros w3 L3. now apply sp_comma.
      * cbn. tauto.
    + intros [v b] [Q PV']. cbn [fst snd] in *. subst b.
      eapply sp_bind_l with (D1 := begins term); [apply (IH fuel [] true l_nil); [lia|now left]| |auto]. intros q FQ. apply sp_ret. constructor; [split; assumption|assumption].
    + intros r HB. eapply items_solid; [|exact I|now apply closer_solid with term]. apply goodp_entry_opens.
Qed.
Lemma sp_map_all {A B} term (mk : M A) (mv : M B) c l t w0 : closer term -> items (goodp_entry mk mv c) l t -> layout w0 ->
  sp false false (map_all term mk mv) (S c) (w0 ++ t) (begins term) (Forall2 fits2 l).
Proof.
  intros C I L0. unfold map_all. apply sp_src. intros r HB. eapply sp_D; [apply sp_map_loop; auto|].
  - assert (H := items_length _ _ _ (goodp_entry_opens mk mv c) I). rewrite !app_length. unfold str, char in *. lia.
  - now intros r' ->.
Qed.

Section Fields.
Variable value_of : ty -> M val.
Variable deny : bool.
Variable fields : list (str * ty).
Inductive goodp_field (c : nat) : str * (val -> Prop) -> str -> Prop :=
  | gpf k tk T P tv w w' : ident_lit tk k -> layout w -> layout w' -> assoc k fields = Some T -> goodp (value_of T) c tv P ->
      goodp_field c (k, P) (tk ++ w ++ c_colon :: w' ++ tv).
Definition fitsf (P : str * (val -> Prop)) (a : str * val) : Prop := fst P = fst a /\ snd P (snd a).
Lemma goodp_field_opens c p t : goodp_field c p t -> forall r, opens (t ++ r).
Proof. intros [k tk T P tv w w' HK _ _ _ _] r. rewrite <- app_assoc. eapply ident_opens; eassumption. Qed.
Lemma sp_field c p tp w1 t2 (D : str -> Prop) b acc w0 fuel :
  goodp_field c p tp -> layout w0 -> assoc (fst p) acc = None ->
  layout w1 -> (forall w2, layout w2 -> sp false false comma (S c) (w2 ++ t2) D (yes b)) -> (forall r, D r -> closing (t2 ++ r)) ->
  forall t3 D3 Q, (forall v, snd p v -> sp false false (struct_loop value_of deny fields fuel ((fst p, v) :: acc) b) (S c) t3 D3 Q) ->
  (forall r, D3 r -> D (t3 ++ r)) ->
  sp false false (struct_loop value_of deny fields (S fuel) acc true) (S c) (w0 ++ tp ++ w1 ++ t2 ++ t3) D3 Q.
Proof.
  intros [k tk T P tv w w' HK L L' AS G] L0 NA L1 CM HD t3 D3 Q NX HD3. cbn [fst snd] in *. cbn [struct_loop].
  eapply sp_text; [eapply (sp_bind false false false _ _ (S c) (w0 ++ tk) ((w ++ c_colon :: w' ++ tv ++ w1 ++ t2) ++ t3) ident_end D3 (yes (Some k)))|texts].
  - apply sp_tr; [|apply keeps_next_key, keeps_field_key]. apply tr_key; [cbn; tauto|assumption|intros r; eapply ident_opens; exact HK|]. apply tr_field_key; [assumption|congruence].
  - intros x <-. rewrite AS, NA. eapply (sp_bind false false false _ _ (S c) _ t3 D D3); [apply (sp_next_value (value_of T) c w w' tv w1 t2 P D b); auto| |exact HD3].
    intros [v b'] [-> PV]. cbn [fst snd]. auto.
  - intros r _. rewrite <- !app_assoc. apply delim_ident_end, layout_delim; [assumption|]. cbn. tauto.
Qed.
Lemma sp_struct_loop c l t : items (goodp_field c) l t ->
  forall fuel w0 had acc, layout w0 -> (length l < fuel)%nat -> (had = true \/ l = []) ->
  (forall k, In k (map fst acc) -> ~ In k (map fst l)) -> NoDup (map fst l) ->
  sp false false (struct_loop value_of deny fields fuel acc had) (S c) (w0 ++ t) (begins c_rp)
    (fun res => exists fs, Forall2 fitsf l fs /\ res = rev fs ++ acc).
Proof.
  assert (C : closer c_rp) by (cbn; tauto).
  induction 1 as [|p t w G L|p t w w' l ts G L L' I IH]; intros [|fuel] w0 had acc L0 F H NA ND; cbn [length] in F; try lia.
  - rewrite app_nil_r. cbn [struct_loop]. eapply sp_bind_l; [apply sp_no_key; assumption| |auto]. intros x <-. apply sp_ret. exists []. split; [constructor|reflexivity].
  - destruct H as [->|H]; [|discriminate].
    eapply sp_text; [eapply (sp_field c p t w [] (begins c_rp) false acc w0 fuel G L0)|].
    + apply assoc_none. intros IN. apply (NA _ IN). now left.
    + exact L.
    + intros w2 L2. rewrite app_nil_r. now apply sp_no_comma.
    + intros r. apply closing_begins. cbn. tauto.
    + intros v PV. destruct fuel as [|fuel]; [lia|]. cbn [struct_loop].
      eapply sp_bind_l; [apply (sp_no_key c_rp _ false (S c) [] C l_nil)| |]; [|intros r HB; exact HB]. intros x <-. apply sp_ret. exists [(fst p, v)]. split; [|reflexivity]. repeat constructor. exact PV.
    + auto.
    + texts.
  - destruct H as [->|H]; [|discriminate]. cbn [map] in NA, ND. inversion ND as [|? ? N1 N2]; subst.
    eapply sp_text; [eapply (sp_field c p t w (c_comma :: w') solid true acc w0 fuel G L0)|].
    + apply assoc_none. intros IN. apply (NA _ IN). now left.
    + exact L.
    + intros w2 L2. now apply sp_comma.
    + intros r _. cbn. tauto.
    + intros v PV. eapply sp_P; [apply (IH fuel [] true ((fst p, v) :: acc)); [constructor|lia|now left| |exact N2]|].
      * intros k [<-|IN]; [exact N1|]. intros IN2. apply (NA k IN). now right.
      * cbn beta. intros res (fs & FF & ->). exists ((fst p, v) :: fs). split; [constructor; [split; [reflexivity|exact PV]|exact FF]|]. cbn [rev]. now rewrite <- app_assoc.
    + intros r B. eapply items_solid; [|exact I|now apply closer_solid with c_rp]. apply goodp_field_opens.
    + texts.
Qed.
Lemma sp_collect l c acc is_opt fs : forall fl, Forall2 (collected is_opt acc) fl fs -> sp l l (collect is_opt fl acc) c [] anything (yes fs).
Proof.
  induction 1 as [|[f ft] [f' v] fl fs [EQ H] F IH]; cbn [collect]; [now apply sp_ret|]. cbn [fst snd] in *. subst f'.
  eapply sp_bind_l with (D1 := anything) (P := yes v); [| |now intros].
  - destruct (assoc f acc); [subst v; now apply sp_ret|]. destruct H as [-> ->]. now apply sp_ret.
  - intros v' <-. eapply sp_bind_l with (D1 := anything); [exact IH| |now intros]. intros q <-. now apply sp_ret.
Qed.
(** all fields, in the order of their declaration *)
Lemma sp_struct_body c l t w0 is_opt : items (goodp_field c) l t -> layout w0 -> map fst l = map fst fields -> NoDup (map fst fields) ->
  sp false false (struct_body value_of deny fields is_opt) (S c) (w0 ++ t) (begins c_rp) (Forall2 fitsf l).
Proof.
  intros I L0 EQ ND. unfold struct_body. apply sp_src. intros r B.
  eapply sp_bind_l with (D1 := begins c_rp); [apply (sp_struct_loop c l t I (2 + length ((w0 ++ t) ++ r)) w0 true [] L0)| |].
  - assert (H := items_length _ _ _ (goodp_field_opens c) I). rewrite !app_length. unfold str, char in *. lia.
  - now left.
  - intros k [].
  - now rewrite EQ.
  - cbn beta. intros res (fs & FF & ->). rewrite app_nil_r. eapply sp_P; [eapply sp_D; [apply (sp_collect _ _ (rev fs) is_opt fs fields)|now intros]|now intros q <-].
    assert (QF : map fst fs = map fst l). { clear - FF. induction FF as [|p a l fs [Q _] _ IH]; [reflexivity|]. cbn [map]. congruence. }
    apply fields_collected with (fs' := fs); [exact ND|congruence|apply Permutation_refl].
  - now intros r' ->.
Qed.
End Fields.

(** ** Brackets *)
Lemma rb_solid x r : In x [c_rb; c_rc; c_rp; c_lp] -> solid (x :: r).
Proof. intros H. cbn in H. repeat (destruct H as [<-|H]; [apply solid_char; reflexivity || discriminate|]). contradiction. Qed.
Lemma sp_de_seq {A} (body : M A) c tb P : sp false false body c tb (begins c_rb) P -> sp false false (de_seq body) (S c) (c_lb :: tb ++ [c_rb]) anything P.
Proof.
  intros H. unfold de_seq. eapply sp_bind_r with (D1 := anything); [apply sp_nt| |now intros]. intros _ _.
  eapply (sp_bind false false false _ _ (S c) [c_lb] (tb ++ [c_rb]) anything anything); [apply sp_char| |now intros]. intros b <-. cbv iota.
  eapply (sp_bind false false false _ _ (S c) tb [c_rb] (begins c_rb) anything); [apply sp_guard_with; exact H| |intros r _; now exists r]. intros a PA.
  eapply sp_bind_r with (D1 := solid); [apply (sp_ws [] (S c) l_nil)| |intros r _; apply rb_solid; cbn; tauto]. intros _ _.
  eapply sp_bind_l with (D1 := anything); [apply sp_pre, sp_char| |now intros]. intros b <-. now apply sp_ret.
Qed.
Lemma sp_de_map {A} (body : M A) c tb P : sp false false body c tb (begins c_rc) P -> sp false false (de_map body) (S c) (c_lc :: tb ++ [c_rc]) anything P.
Proof.
  intros H. unfold de_map. eapply sp_bind_r with (D1 := anything); [apply sp_nt| |now intros]. intros _ _.
  eapply (sp_bind false false false _ _ (S c) [c_lc] (tb ++ [c_rc]) anything anything); [apply sp_char| |now intros]. intros b <-. cbv iota.
  eapply (sp_bind false false false _ _ (S c) tb [c_rc] (begins c_rc) anything); [apply sp_guard_with; exact H| |intros r _; now exists r]. intros a PA.
  eapply sp_bind_r with (D1 := solid); [apply (sp_ws [] (S c) l_nil)| |intros r _; apply rb_solid; cbn; tauto]. intros _ _.
  eapply sp_bind_l with (D1 := anything); [apply sp_pre, sp_char| |now intros]. intros b <-. now apply sp_ret.
Qed.
Lemma sp_close_paren {A} c e0 w (v : A) (P : A -> Prop) : layout w -> P v ->
  sp false false (skip_ws ;;; (c <- consume_char c_rp ;; if c then ret v else fail e0)) c (w ++ [c_rp]) anything P.
Proof.
  intros L PV. refine (sp_bind false true false _ _ c w [c_rp] solid _ _ _ (sp_ws w c L) _ _); [|intros r _; apply rb_solid; cbn; tauto]. intros _ _.
  eapply sp_bind_l with (D1 := anything); [apply sp_pre, sp_char| |now intros]. intros b <-. now apply sp_ret.
Qed.
Lemma sp_de_tuple {A} (body : M A) c tb w P (D : str -> Prop) : sp false false body c tb D P -> layout w ->
  (forall r, begins c_rp r -> D (w ++ r)) -> sp false false (de_tuple body) (S c) (c_lp :: (tb ++ w) ++ [c_rp]) anything P.
Proof.
  intros H L HD. unfold de_tuple. apply sp_get. intros s _ ->.
  eapply (sp_bind false false false _ _ (S c) [c_lp] ((tb ++ w) ++ [c_rp]) anything anything); [apply sp_char| |now intros]. intros b <-. cbv iota.
  eapply sp_bind_r with (D1 := anything); [apply sp_nt| |now intros]. intros _ _. rewrite <- app_assoc.
  refine (sp_bind false false false _ _ (S c) tb _ D _ _ _ (sp_guard_with _ _ _ _ _ _ _ _ H) _ _).
  - intros a PA. now apply sp_close_paren.
  - intros r _. rewrite <- app_assoc. apply HD. now exists r.
Qed.
Lemma sp_struct_after_name {A} name (body : M A) c tb P : sp false false body c tb (begins c_rp) P ->
  sp false false (struct_after_name name body) (S c) (c_lp :: tb ++ [c_rp]) anything P.
Proof.
  intros H. unfold struct_after_name. apply sp_get. intros s _ ->.
  eapply (sp_bind false false false _ _ (S c) [c_lp] (tb ++ [c_rp]) anything anything); [apply sp_char| |now intros]. intros b <-. cbv iota.
  eapply sp_bind_r with (D1 := anything); [apply sp_nt| |now intros]. intros _ _.
  refine (sp_bind false false false _ _ (S c) tb _ (begins c_rp) _ _ _ (sp_guard_with _ _ _ _ _ _ _ _ (sp_map_err _ _ _ _ _ _ _ _ H)) _ _).
  - intros a PA. apply (sp_close_paren (S c) _ [] a P l_nil PA).
  - intros r _. now exists r.
Qed.
Variable sf : token -> Prop.
Lemma sp_named {B} (m : M B) gap name tn c t D Q : name_text e sf gap name tn -> begins c_lp t ->
  (forall w, layout w -> (gap = false -> w = []) -> sp false false m c (w ++ t) D Q) ->
  sp false false (consume_struct_name name ;;; m) c (tn ++ t) D Q.
Proof.
  intros HN (t' & ->) H. destruct (tr_name e sf gap name tn HN) as (t1 & w & x & -> & L & G & _ & TR).
  rewrite <- app_assoc. eapply (sp_bind false false false _ _ c t1 (w ++ c_lp :: t') ident_end D).
  - apply sp_tr; [apply TR|auto with keeps].
  - intros b _. now apply H.
  - intros r _. rewrite <- app_assoc. now apply lp_ident_end.
Qed.
End Exts.
End WithEnv.
