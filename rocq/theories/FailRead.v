(** Mistakes in the fields of structs that are anywhere in a value. *)
From Coq Require Import String Ascii NArith ZArith Lia Bool List.
From Coq Require Import ZifyBool ZifyNat ZifyN.
From Verif Require Import Base Facts Value Data Parse De Span Wp EnvOk Layout Lit Attr LexSafe LexWs LexRead DocSafe DocRead LexDoc Fuel Repr ReprFacts TypedRead TypedMain VRepr Accept AnyRead AnyMain StructSpec StructRead.
Import ListNotations.
Open Scope N_scope.
Open Scope list_scope.
Open Scope m_scope.

Section WithEnv.
Context {E : Env} {X : XidOk E} {FO : FloatOk E}.
Section Exts.
Variable e : exts.

(** nothing is left *)
Definition stop (r : str) : Prop := r = [].
Notation fl m c t x := (tf e m false c t stop x).
Lemma tf_rest {A} (m : M A) n c t (D : str -> Prop) r x : tf e m n c t D x -> D r -> tf e m n c (t ++ r) stop x.
Proof. intros H Dr T s r' J Hs -> He Hn Hl. rewrite app_nil_r in Hs. now apply (H T s r). Qed.
Lemma opens_stop t r : opens t -> stop r -> opens (t ++ r).
Proof. intros O ->. now rewrite app_nil_r. Qed.

Lemma fl_next_element {A} term (m : M A) c w0 t x : closer term -> layout w0 -> opens t -> fl m c t x ->
  fl (next_element term m true) (S c) (w0 ++ t) x.
Proof.
  intros C L0 O H. unfold next_element.
  apply (tf_bind e _ _ false false (S c) w0 t opens stop true); [now apply tr_has_more| |intros r R; now apply opens_stop].
  now apply tf_stop, tf_guard_with.
Qed.
Lemma fl_next_key {A} term (m : M A) c w0 t x : closer term -> layout w0 -> opens t -> fl m c t x ->
  fl (next_key term m true) (S c) (w0 ++ t) x.
Proof.
  intros C L0 O H. unfold next_key.
  apply (tf_bind e _ _ false false (S c) w0 t opens stop true); [now apply tr_has_more| |intros r R; now apply opens_stop].
  now apply tf_stop, tf_guard_with.
Qed.
Lemma fl_next_value {A} (m : M A) c w w' t x : layout w -> layout w' -> opens t -> fl m c t x ->
  fl (next_value m) (S c) (w ++ c_colon :: w' ++ t) x.
Proof.
  intros L L' O H. unfold next_value.
  refine (tf_bind e _ _ false false (S c) w (c_colon :: w' ++ t) solid stop tt _ _ _ _);
    [now apply tr_ws| |intros r _; apply solid_char; reflexivity || discriminate].
  apply (tf_bind e _ _ false false (S c) [c_colon] (w' ++ t) anything stop true); [apply tr_char| |now intros].
  refine (tf_bind e _ _ false false (S c) w' t solid stop tt _ _ _ _);
    [now apply tr_ws| |intros r R; now apply opens_solid, opens_stop].
  now apply tf_stop, tf_guard_with.
Qed.
Lemma opened_length {A} (R : A -> str -> Prop) l t : opened R l t -> (length l <= length t)%nat.
Proof.
  induction 1 as [|p t w w' l ts G L L' I IH]; [reflexivity|]. cbn [length]. repeat (rewrite app_length || cbn [length]).
  unfold str, char in *. lia.
Qed.
Lemma opened_opens {A} (R : A -> str -> Prop) l tl t : (forall a t, R a t -> forall r, opens (t ++ r)) -> opened R l tl -> opens t -> opens (tl ++ t).
Proof. intros HR [|a t0 w w' l0 ts H _ _ _] O; [assumption|]. rewrite <- app_assoc. eapply HR. exact H. Qed.

Lemma fl_seq_loop {A} term (m : M A) c l tl t x : closer term -> opened (fun a t => good e m c t a) l tl -> opens t -> fl m c t x ->
  forall fuel w0, layout w0 -> (length l < fuel)%nat -> fl (seq_loop fuel term m true) (S c) (w0 ++ tl ++ t) x.
Proof.
  intros C I O H. induction I as [|a ta w w' l ts G L L' I IH]; intros [|fuel] w0 L0 F; cbn [length] in F; try lia; cbn [seq_loop].
  - now apply tf_stop, fl_next_element.
  - eapply tf_text; [eapply (tf_bind e _ _ false false (S c) (w0 ++ ta ++ w ++ c_comma :: w') (ts ++ t) solid stop (Some a, true))|texts].
    + now apply tr_elem_comma.
    + cbn iota. apply tf_stop. apply (IH fuel [] l_nil). lia.
    + intros r ->. rewrite app_nil_r. apply opens_solid. eapply opened_opens; [|exact I|exact O]. now intros ? ? [].
Qed.
Lemma fl_seq_all {A} term (m : M A) c l tl t x w0 : closer term -> opened (fun a t => good e m c t a) l tl -> opens t -> fl m c t x ->
  layout w0 -> fl (seq_all term m) (S c) (w0 ++ tl ++ t) x.
Proof.
  intros C I O H L0. unfold seq_all. apply tf_src. intros r Dr. eapply tf_D; [apply (fl_seq_loop term m c l tl t x C I O H); auto|].
  - assert (Q := opened_length _ _ _ I). rewrite !app_length. unfold str, char in *. lia.
  - now intros r' ->.
Qed.
Lemma fl_tuple_elems {A} c (ps : list (M A * A)) tl m ms t x : opened (fun p t => good e (fst p) c t (snd p)) ps tl -> opens t -> fl m c t x ->
  forall w0 i, layout w0 -> fl (tuple_elems (map fst ps ++ m :: ms) i true) (S c) (w0 ++ tl ++ t) x.
Proof.
  intros I O H. assert (C : closer c_rp) by (cbn; tauto).
  induction I as [|[m' a] ta w w' l ts G L L' I IH]; intros w0 i L0; cbn [map app tuple_elems fst snd] in *.
  - now apply tf_stop, fl_next_element.
  - eapply tf_text; [eapply (tf_bind e _ _ false false (S c) (w0 ++ ta ++ w ++ c_comma :: w') (ts ++ t) solid stop (Some a, true))|texts].
    + now apply tr_elem_comma.
    + cbn iota. apply tf_stop. apply (IH [] (S i) l_nil).
    + intros r ->. rewrite app_nil_r. apply opens_solid. eapply opened_opens; [|exact I|exact O]. now intros ? ? [].
Qed.

(** after a value that may have eaten the layout after it *)
Lemma fl_after {A B} (m : M A) (k : A -> M B) c t1 w t2 a x : trw e m c t1 a -> layout w -> (forall r, stop r -> closing (t2 ++ r)) ->
  (forall w', layout w' -> fl (k a) c (w' ++ t2) x) -> fl (bind m k) c (t1 ++ w ++ t2) x.
Proof.
  intros G L CL H T s r J Hs -> He Hn Hl. apply wp_bind. rewrite app_nil_r, <- ?app_assoc in Hs.
  eapply wp_conseq; [apply (G T s (w ++ t2) (fun r => exists w', layout w' /\ r = w' ++ t2))| |now cbn beta]; auto.
  - specialize (CL [] eq_refl). rewrite app_nil_r in CL. right. exists t2. split; [exact CL|reflexivity].
  - now exists w.
  - cbn beta. intros a' s' (-> & (w' & L' & R') & J' & E' & N' & LL). apply (H w' L' T s' []); auto; [now rewrite app_nil_r|reflexivity|now rewrite LL].
Qed.

(** entries, then something that fails *)
Lemma fl_map_entries {A B} term (mk : M A) (mv : M B) c l tl t x : closer term -> opened (good_entry e mk mv c) l tl -> opens t ->
  (forall fuel w0, layout w0 -> fl (map_loop (S fuel) term mk mv true) (S c) (w0 ++ t) x) ->
  forall fuel w0, layout w0 -> (length l < fuel)%nat -> fl (map_loop fuel term mk mv true) (S c) (w0 ++ tl ++ t) x.
Proof.
  intros C I O H. induction I as [|a ta w w' l ts G L L' I IH]; intros [|fuel] w0 L0 F; cbn [length] in F; try lia.
  - now apply H.
  - cbn [map_loop]. destruct G as [k tk v tv w1 w2 GK L1 L2 GV].
    eapply tf_text; [eapply (fl_after _ _ (S c) (w0 ++ tk) w1 (c_colon :: w2 ++ tv ++ w ++ c_comma :: w' ++ ts ++ t) (Some k))|texts].
    + now apply trw_key.
    + assumption.
    + intros r _. cbn. tauto.
    + intros w1' L1'. eapply tf_text; [refine (tf_bind e _ _ false false (S c) (w1' ++ c_colon :: w2 ++ tv ++ w ++ c_comma :: w') (ts ++ t) solid stop (v, true) _ _ _ _)|texts].
      * apply tr_colon_comma; assumption.
      * cbn [fst snd]. apply tf_stop. apply (IH fuel [] l_nil). lia.
      * intros r ->. rewrite app_nil_r. apply opens_solid. eapply opened_opens; [|exact I|exact O].
        intros ? ? G. eapply entry_opens; [|exact G]. now intros ? ? [].
Qed.
Lemma fl_map_all {A B} term (mk : M A) (mv : M B) c l tl t x w0 : closer term -> opened (good_entry e mk mv c) l tl -> opens t ->
  (forall fuel w0, layout w0 -> fl (map_loop (S fuel) term mk mv true) (S c) (w0 ++ t) x) -> layout w0 ->
  fl (map_all term mk mv) (S c) (w0 ++ tl ++ t) x.
Proof.
  intros C I O H L0. unfold map_all. apply tf_src. intros r Dr. eapply tf_D; [apply (fl_map_entries term mk mv c l tl t x C I O H); auto|].
  - assert (Q := opened_length _ _ _ I). rewrite !app_length. unfold str, char in *. lia.
  - now intros r' ->.
Qed.

(** brackets *)
Lemma fl_de_seq {A} (body : M A) c tb x : fl body c tb x -> fl (de_seq body) (S c) (c_lb :: tb) x.
Proof.
  intros H. unfold de_seq. eapply tf_bind_r with (D1 := anything); [apply tr_nt| |now intros].
  apply (tf_bind e _ _ false false (S c) [c_lb] tb anything stop true); [apply tr_char| |now intros].
  now apply tf_stop, tf_guard_with.
Qed.
Lemma fl_de_map {A} (body : M A) c tb x : fl body c tb x -> fl (de_map body) (S c) (c_lc :: tb) x.
Proof.
  intros H. unfold de_map. eapply tf_bind_r with (D1 := anything); [apply tr_nt| |now intros].
  apply (tf_bind e _ _ false false (S c) [c_lc] tb anything stop true); [apply tr_char| |now intros].
  now apply tf_stop, tf_guard_with.
Qed.
Lemma fl_de_tuple {A} (body : M A) c tb x : fl body c tb x -> fl (de_tuple body) (S c) (c_lp :: tb) x.
Proof.
  intros H. unfold de_tuple. apply tf_get. intros s _ ->. cbn iota.
  apply (tf_bind e _ _ false false (S c) [c_lp] tb anything stop true); [apply tr_char| |now intros].
  eapply tf_bind_r with (D1 := anything); [apply tr_nt| |now intros].
  now apply tf_stop, tf_guard_with.
Qed.
Lemma fl_name {A} sf gap name tn (k : bool -> M A) c r x : name_text e sf gap name tn ->
  (forall w0 b, layout w0 -> (gap = false -> w0 = []) -> fl (k b) c (w0 ++ c_lp :: r) x) ->
  fl (b <- consume_struct_name name ;; k b) c (tn ++ c_lp :: r) x.
Proof.
  intros HN H. destruct (tr_name e sf gap name tn HN) as (t1 & w & b & -> & L & G & _ & TR). rewrite <- app_assoc.
  refine (tf_bind e _ _ false false _ t1 _ ident_end stop b _ (TR false _) (H w b L G) _).
  intros r0 _. rewrite <- app_assoc. now apply lp_ident_end.
Qed.

Lemma fl_same_err {A} g (m : M A) c t x : g x = x -> fl m c t x -> fl (map_err g m) c t x.
Proof. intros Q H. rewrite <- Q. now apply tf_map_err. Qed.
Lemma labelled_same n x : labelled x -> struct_error_name n x = x.
Proof. now intros [f l|f l|f l]. Qed.
Lemma labelled_enum n x : labelled x -> enum_error_name n x = x.
Proof. now intros [f l|f l|f l]. Qed.
Lemma labelled_field x : labelled x -> field_error x.
Proof. intros [f l|f l|f l]; constructor. Qed.

Variable tenv : nat -> ty.
Variable fok : fk -> N -> Prop.
Notation de_ty := (de_ty tenv).
Notation yes := (fun _ => True).
Notation fails := (fails e tenv fok).

Lemma listed_good c p t : listed e tenv fok c p t -> exists n, forall f, (n <= f)%nat -> good e (de_ty f (fst p)) c t (snd p).
Proof.
  intros (TV & LE & RV). apply (ok_good e yes tenv fok); [split; [exact RV|now apply (repr_ok e yes)]|assumption|assumption].
Qed.
Lemma opened_all {A} (R : nat -> A -> str -> Prop) (P : A -> str -> Prop) l t : opened P l t ->
  (forall a t, P a t -> exists n, forall f, (n <= f)%nat -> R f a t) ->
  exists n, forall f, (n <= f)%nat -> opened (R f) l t.
Proof.
  intros I H. induction I as [|a t w w' l ts Pa L L' I (n' & IH)].
  - exists 0%nat. constructor.
  - destruct (H a t Pa) as (n & Hn). exists (Nat.max n n'). intros f LF. constructor; auto; [apply Hn|apply IH]; lia.
Qed.
Lemma map_entry_good c K T p t : map_entry e tenv fok c K T p t -> exists n, forall f, (n <= f)%nat -> good_entry e (de_ty f K) (de_ty f T) c p t.
Proof.
  intros [k v tk w w' tv LK L L' LV]. destruct (listed_good c _ _ LK) as (n & H). destruct (listed_good c _ _ LV) as (n' & H').
  exists (Nat.max n n'). intros f LF. constructor; auto; [apply H|apply H']; lia.
Qed.
Lemma opened_pairs f c l t : opened (fun p t => good e (de_ty f (fst p)) c t (snd p)) l t ->
  opened (fun q t => good e (fst q) c t (snd q)) (map (fun p => (de_ty f (fst p), snd p)) l) t.
Proof. induction 1; cbn [map]; constructor; auto. Qed.

Definition fl_ty c T t x : Prop := opens t /\ labelled x /\ exists n, forall f, (n <= f)%nat -> fl (de_ty f T) c t x.
Lemma fl_ty_step c T t x : opens t -> labelled x -> (exists n, forall f, (n <= f)%nat -> fl (de_step tenv (de_ty f) T) c t x) -> fl_ty c T t x.
Proof.
  intros O LX (n & H). split; [exact O|]. split; [exact LX|]. exists (S n). intros [|f] LF; [lia|]. apply (H f). lia.
Qed.
Lemma lp_opens r : opens (c_lp :: r).
Proof. split; [reflexivity|]. cbn. intuition discriminate. Qed.
Lemma name_opens sf gap name tn r : name_text e sf gap name tn -> opens (tn ++ c_lp :: r).
Proof. intros [XN|t w _ HI L _]; [apply lp_opens|]. rewrite <- app_assoc. eapply ident_opens; exact HI. Qed.

Lemma fl_struct c T deny fields mk label h th w ents t t3 (D3 : str -> Prop) r x : struct_head e T deny fields mk label h th -> NoDup (map fst fields) -> layout w ->
  opened (field_entry e tenv fok deny fields c) ents t -> NoDup (map fst (given ents)) -> field_error x -> labelled (struct_error_name (Some label) x) ->
  (forall r, D3 r -> opens (t3 ++ r)) -> D3 r ->
  (exists n, forall f, (n <= f)%nat -> forall fuel w0, layout w0 -> (0 < fuel)%nat ->
     tf e (struct_loop (de_ty f) deny fields fuel (rev (known ents)) true) false (S c) (w0 ++ t3) D3 x) ->
  fl_ty (h + c) T (th ++ c_lp :: w ++ t ++ t3 ++ r) (struct_error_name (Some label) x).
Proof.
  intros HH ND L I NK FX LX O3 Dr (n & H). apply fl_ty_step; [exact (head_opens e tenv T deny fields mk label h th _ HH)|exact LX|].
  destruct (opened_good e tenv fok deny fields c ents t ND I) as (n' & H'). exists (Nat.max n n'). intros f LF.
  eapply tf_text; [eapply tf_rest; [|exact Dr]|].
  - eapply (head_fails e tenv fok); [exact HH|exact FX|]. apply tf_body with (l := ents).
    + apply H'. lia.
    + exact L.
    + exact NK.
    + intros r0 D0. now apply opens_solid, O3.
    + intros fuel w0 L0 F0. apply H; auto. lia.
  - texts.
Qed.

Lemma known_in deny fields c l t k : opened (field_entry e tenv fok deny fields c) l t -> In k (map fst (known l)) -> NoDup (map fst fields) ->
  assoc k fields <> None.
Proof.
  intros I IN ND. apply in_map_iff in IN as ([k' v] & Q & IN). cbn [fst] in Q. subst k'.
  destruct (opened_known e tenv fok deny fields c l t I k v IN) as (T0 & IN'). rewrite (assoc_in k T0 fields ND IN'). discriminate.
Qed.
Lemma known_acc (l : list (str * option val)) k : NoDup (map fst (known l)) -> In k (map fst (known l)) -> assoc k (rev (known l)) <> None.
Proof.
  intros NK IN. apply in_map_iff in IN as ([k' v] & Q & IN). cbn [fst] in Q. subst k'.
  rewrite (assoc_in k v); [discriminate| |now apply -> in_rev]. rewrite map_rev. now apply NoDup_rev.
Qed.
(** a variant, before its parenthesis *)
Lemma fl_variant ename variants k W tk w r c x rec : NoDup (map fst variants) -> In (k, W) variants -> ident_lit tk k -> layout w ->
  labelled x ->
  (forall li, fl (match W with
       | WUnit => ret (VUnitVariant ename k)
       | WNew t =>
           skip_ws ;;;
           b <- consume_char c_lp ;;
           if b then
             skip_ws ;;;
             modify (fun s => set_nt (x_unwrap_variant_newtypes (ext s)) s) ;;;
             v <- guard (map_err (struct_error_name li) (rec t)) ;;
             modify (set_nt false) ;;;
             comma ;;;
             c <- consume_char c_rp ;;
             if c then ret (VNewVariant ename k v) else fail EExpectedStructLikeEnd
           else fail EExpectedStructLike
       | WTup ts =>
           skip_ws ;;;
           de_tuple (l <- tuple_elems (map rec ts) 0 true ;; ret (VTupVariant ename k l))
       | WStruct deny fields => fail EMessage
       end) (S c) (w ++ c_lp :: r) x) ->
  fl (de_step tenv rec (TEnum ename variants)) (S (S c)) (tk ++ w ++ c_lp :: r) x.
Proof.
  intros ND IN HI L LX H. cbn [de_step]. eapply tf_bind_r with (D1 := anything); [apply tr_nt| |now intros].
  rewrite <- (labelled_enum ename x LX). apply tf_map_err, tf_guard_with.
  eapply tf_bind_r with (D1 := solid); [apply (tr_ws e [] false _ l_nil)| |intros r0 _; rewrite <- app_assoc; eapply opens_solid, ident_opens; exact HI].
  refine (tf_bind e _ _ false false _ tk (w ++ c_lp :: r) ident_end stop (k, W) _ _ _ _).
  - eapply tr_le; [|apply tr_guard]; [|eapply tr_bind_l; [apply tr_ident; exact HI| |auto]].
    + instantiate (1 := 0%nat). lia.
    + rewrite (assoc_in k W variants ND IN). apply tr_ret.
  - cbn iota. destruct W; [exact (H None)| |exact (H None)|].
    + apply tf_get. intros s _ _. exact (H (last_id s)).
    + intros T s r0 J Hs R He Hn Hl. specialize (H None T s r0 J Hs R He Hn Hl). Transparent wp. unfold wp, fail in H. Opaque wp.
      subst x. inversion LX.
  - intros r0 _. rewrite <- app_assoc. now apply lp_ident_end.
Qed.

Theorem fails_read c T t x : fails c T t x -> fl_ty c T t x.
Proof.
  induction 1 as [c T deny fields mk label h th w ents t tk k r HH ND L I NK IN HK IE
    |c T deny fields mk label h th w ents t tk k r HH ND L I NK DN NI HK IE
    |c T deny fields mk label h th w ents t k Tk before after r HH ND L I NK QF F NI NO
    |c T deny fields mk label h th w ents t k Tk tk w1 w2 t' x HH ND L I NK IN NI HK L1 L2 F (O & LX & n & H)
    |c T w w' t x UV L L' F (O & LX & n & H)
    |c T t x IS NO F (O & LX & n & H)
    |c name T tn w t x UN HN L F (O & LX & n & H)
    |c name T t x UN F (O & LX & n & H)
    |c T w l tl t x L I F (O & LX & n & H)
    |c w l tl T Ts t x L I F (O & LX & n & H)
    |c name tn w l tl T Ts t x HN L I F (O & LX & n & H)
    |c K T w l tl t x L I F (O & LX & n & H)
    |c K T w l tl k tk w1 w2 t x L I LK L1 L2 F (O & LX & n & H)
    |c ename variants k T tk w w' t x UV ND IN HI L L' F (O & LX & n & H)
    |c ename variants k l tl T Ts tk w w' t x ND IN HI L L' I F (O & LX & n & H)
    |c n t x F (O & LX & n' & H)].
  - change (EDuplicateStructField k (Some label)) with (struct_error_name (Some label) (EDuplicateStructField k None)).
    eapply fl_struct with (D3 := ident_end); eauto; [constructor|constructor|intros; eapply ident_opens; exact HK|].
    exists 0%nat. intros f _ fuel w0 L0 F0. apply tf_duplicate; auto; [eapply known_in; eassumption|now apply known_acc].
  - change (ENoSuchStructField k (Some label)) with (struct_error_name (Some label) (ENoSuchStructField k None)).
    eapply fl_struct with (D3 := ident_end); eauto; [constructor|constructor|intros; eapply ident_opens; exact HK|].
    exists 0%nat. intros f _ fuel w0 L0 F0. apply tf_unknown; auto. now apply assoc_none.
  - change (EMissingStructField k (Some label)) with (struct_error_name (Some label) (EMissingStructField k None)).
    apply fl_ty_step; [exact (head_opens e tenv T deny fields mk label h th _ HH)|constructor|].
    destruct (entries_good e tenv fok deny fields c ents t ND I) as (n & H). exists n. intros f LF.
    eapply tf_text; [eapply tf_rest with (D := begins c_rp) (r := c_rp :: r); [|now exists r]|].
    + eapply (head_fails e tenv fok); [exact HH|constructor|].
      eapply (tf_body_missing e (de_ty f) deny fields (is_option tenv) c ents t w k Tk before after); auto.
    + texts.
  - replace x with (struct_error_name (Some label) x) by now apply labelled_same.
    replace (th ++ c_lp :: w ++ t ++ tk ++ w1 ++ c_colon :: w2 ++ t') with (th ++ c_lp :: w ++ t ++ (tk ++ w1 ++ c_colon :: w2 ++ t') ++ []) by texts.
    eapply fl_struct with (D3 := stop); eauto; [now apply labelled_field|now rewrite labelled_same|intros; rewrite <- app_assoc; eapply ident_opens; exact HK|reflexivity|].
    exists n. intros f LF fuel w0 L0 F0. destruct fuel as [|fuel]; [lia|]. cbn [struct_loop]. rewrite app_assoc.
    refine (tf_bind e _ _ false false (S c) (w0 ++ tk) _ ident_end stop (Some k) _ _ _ _).
    + apply tr_key; [cbn; tauto|assumption|intros r; eapply ident_opens; exact HK|]. apply tr_field_key; [assumption|].
      rewrite (assoc_in k Tk fields ND IN). discriminate.
    + rewrite (assoc_in k Tk fields ND IN). rewrite (assoc_none k) by (rewrite map_rev, <- in_rev; exact NI).
      apply tf_stop, fl_next_value; auto.
    + intros r _. rewrite <- app_assoc. apply delim_ident_end, layout_delim; [assumption|]. cbn. tauto.
  - apply fl_ty_step; [split; [reflexivity|cbn; intuition discriminate]|exact LX|]. exists n. intros f LF. cbn [de_step]. unfold de_option.
    refine (tf_bind_r e _ _ false false _ _ _ _ false _ (tr_lex e _ false _ _ _ _ (reads_consume_ident_false _)) _ _); [|reflexivity].
    refine (tf_bind e _ _ false false _ s_Some _ (starts_not xid_continue) _ true _ (tr_lex e _ false _ _ _ _ (reads_consume_ident _)) _ _).
    2:{ intros r _. rewrite <- app_assoc. apply ident_end_xid. now apply lp_ident_end. }
    eapply tf_text; [refine (tf_bind e _ _ false false _ (w ++ [c_lp]) (w' ++ t) anything _ true _ _ _ _)|texts]; [| |now intros].
    + refine (tr_bind e _ _ false false false _ w [c_lp] solid _ tt _ _ _ _); [now apply tr_ws|apply tr_char|].
      intros r _. apply solid_char; reflexivity || discriminate.
    + cbn iota. refine (tf_bind e _ _ false false _ w' _ solid stop tt _ (tr_ws e w' false _ L') _ _); [|intros; now apply opens_solid, opens_stop].
      eapply tf_bind_r with (D1 := anything); [apply tr_nt_ext| |now intros]. rewrite UV.
      now apply tf_stop, tf_guard_with, tf_stop, H.
  - apply fl_ty_step; [exact O|exact LX|]. exists n. intros f LF. cbn [de_step]. unfold de_option.
    assert (NI : forall n r, In n [s_None; s_Some] -> stop r -> ident_at n (t ++ r) = false).
    { intros n' r IN ->. apply no_option_ident; auto; exact Logic.I. }
    refine (tf_bind_r e _ _ false false _ t _ stop false _ (tr_lex e _ false _ _ _ _ (reads_consume_ident_false _)) _ _).
    2:{ intros r D. apply NI; [cbn; tauto|assumption]. }
    refine (tf_bind_r e _ _ false false _ t _ stop false _ (tr_lex e _ false _ _ _ _ (reads_consume_ident_false _)) _ _).
    2:{ intros r D. apply NI; [cbn; tauto|assumption]. }
    eapply tf_bind_r with (D1 := anything); [apply tr_ret| |now intros].
    apply tf_get. intros s -> _. rewrite IS. now apply tf_guard_with, tf_stop, H.
  - apply fl_ty_step; [now apply (name_opens yes true name)|exact LX|]. exists n. intros f LF. cbn [de_step]. unfold de_newtype.
    apply tf_get. intros s -> ->. rewrite UN. cbn [orb]. cbn iota.
    eapply (fl_name yes true); [exact HN|]. intros w0 b L0 _.
    refine (tf_bind e _ _ false false _ w0 _ solid stop tt _ (tr_ws e w0 false _ L0) _ _); [|intros; apply lp_solid].
    refine (tf_bind e _ _ false false _ [c_lp] _ anything stop true _ (tr_char e c_lp false _) _ _); [|now intros]. cbn iota.
    refine (tf_bind e _ _ false false _ w _ solid stop tt _ (tr_ws e w false _ L) _ _); [|intros; now apply opens_solid, opens_stop].
    now apply tf_stop, tf_guard_with, tf_stop, H.
  - apply fl_ty_step; [exact O|exact LX|]. exists n. intros f LF. cbn [de_step]. unfold de_newtype.
    apply tf_get. intros s -> ->. rewrite UN. cbn [orb]. cbn iota.
    eapply tf_bind_r with (D1 := anything); [apply tr_nt| |now intros]. now apply tf_guard_with, tf_stop, H.
  - apply fl_ty_step; [split; [reflexivity|cbn; intuition discriminate]|exact LX|].
    destruct (opened_all (fun f v t => good e (de_ty f T) c t v) _ l tl I) as (n' & H').
    { intros v tv LV. exact (listed_good c (T, v) tv LV). }
    exists (Nat.max n n'). intros f LF. cbn [de_step]. apply fl_de_seq, tf_stop.
    apply fl_seq_all with (l := l); [cbn; tauto|apply H'; lia|exact O|apply H; lia|exact L].
  - apply fl_ty_step; [apply lp_opens|exact LX|].
    destruct (opened_all (fun f p t => good e (de_ty f (fst p)) c t (snd p)) _ l tl I (listed_good c)) as (n' & H').
    exists (Nat.max n n'). intros f LF. cbn [de_step]. apply fl_de_tuple, tf_stop.
    assert (I' := opened_pairs f c l tl (H' f ltac:(lia))).
    rewrite map_app. cbn [map].
    replace (map (de_ty f) (map fst l)) with (map fst (map (fun p => (de_ty f (fst p), snd p)) l)) by now rewrite !map_map.
    apply fl_tuple_elems; auto. apply H. lia.
  - apply fl_ty_step; [now apply (name_opens yes false name)|exact LX|].
    destruct (opened_all (fun f p t => good e (de_ty f (fst p)) c t (snd p)) _ l tl I (listed_good c)) as (n' & H').
    exists (Nat.max n n'). intros f LF. cbn [de_step]. apply tf_get. intros s _ ->. cbn iota.
    eapply (fl_name yes false); [exact HN|]. intros w0 b L0 G0. rewrite G0 by reflexivity. cbn [app].
    apply fl_same_err; [now destruct LX|]. apply fl_de_tuple, tf_stop.
    assert (I' := opened_pairs f c l tl (H' f ltac:(lia))).
    rewrite map_app. cbn [map].
    replace (map (de_ty f) (map fst l)) with (map fst (map (fun p => (de_ty f (fst p), snd p)) l)) by now rewrite !map_map.
    apply fl_tuple_elems; auto. apply H. lia.
  - apply fl_ty_step; [split; [reflexivity|cbn; intuition discriminate]|exact LX|].
    destruct (opened_all (fun f p t => good_entry e (de_ty f K) (de_ty f T) c p t) _ l tl I (map_entry_good c K T)) as (n' & H').
    exists (Nat.max n n'). intros f LF. cbn [de_step]. apply fl_de_map, tf_stop.
    apply fl_map_all with (l := l); [cbn; tauto|apply H'; lia|exact O| |exact L].
    intros fuel w0 L0. cbn [map_loop]. apply tf_stop, fl_next_key; auto; [cbn; tauto|apply H; lia].
  - apply fl_ty_step; [split; [reflexivity|cbn; intuition discriminate]|exact LX|].
    destruct (opened_all (fun f p t => good_entry e (de_ty f K) (de_ty f T) c p t) _ l tl I (map_entry_good c K T)) as (n' & H').
    destruct (listed_good c (K, k) tk LK) as (n2 & H2). cbn [fst snd] in H2.
    exists (Nat.max (Nat.max n n') n2). intros f LF. cbn [de_step]. apply fl_de_map, tf_stop.
    assert (G : good e (de_ty f K) c tk k) by (apply H2; lia).
    apply fl_map_all with (l := l); [cbn; tauto|apply H'; lia|apply G| |exact L].
    intros fuel w0 L0. cbn [map_loop]. rewrite app_assoc.
    apply (fl_after _ _ (S c) (w0 ++ tk) w1 (c_colon :: w2 ++ t) (Some k)); [apply trw_key; [cbn; tauto|assumption|exact G]|exact L1|intros; cbn; tauto|].
    intros w' L'. apply tf_stop, fl_next_value; auto. apply H. lia.
  - apply fl_ty_step; [eapply ident_opens; exact HI|exact LX|]. exists n. intros f LF.
    apply (fl_variant ename variants k (WNew T)); auto. intros li. cbn iota.
    refine (tf_bind e _ _ false false _ w _ solid stop tt _ (tr_ws e w false _ L) _ _); [|intros; apply lp_solid].
    refine (tf_bind e _ _ false false _ [c_lp] _ anything stop true _ (tr_char e c_lp false _) _ _); [|now intros]. cbn iota.
    refine (tf_bind e _ _ false false _ w' _ solid stop tt _ (tr_ws e w' false _ L') _ _); [|intros; now apply opens_solid, opens_stop].
    eapply tf_bind_r with (D1 := anything); [apply tr_nt_ext| |now intros]. rewrite UV.
    rewrite <- (labelled_same li x LX). now apply tf_stop, tf_guard_with, tf_map_err, H.
  - apply fl_ty_step; [eapply ident_opens; exact HI|exact LX|].
    destruct (opened_all (fun f p t => good e (de_ty f (fst p)) c t (snd p)) _ l tl I (listed_good c)) as (n' & H').
    exists (Nat.max n n'). intros f LF.
    apply (fl_variant ename variants k (WTup (map fst l ++ T :: Ts))); auto. intros li. cbn iota.
    refine (tf_bind e _ _ false false _ w _ solid stop tt _ (tr_ws e w false _ L) _ _); [|intros; apply lp_solid].
    apply fl_de_tuple, tf_stop.
    assert (I' := opened_pairs f c l tl (H' f ltac:(lia))).
    rewrite map_app. cbn [map].
    replace (map (de_ty f) (map fst l)) with (map fst (map (fun p => (de_ty f (fst p), snd p)) l)) by now rewrite !map_map.
    apply fl_tuple_elems; auto. apply H. lia.
  - apply fl_ty_step; [exact O|exact LX|]. exists n'. intros f LF. cbn [de_step]. auto.
Qed.
End Exts.
End WithEnv.
