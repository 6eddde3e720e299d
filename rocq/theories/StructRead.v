(** How structs are read: unknown fields, and the errors for fields. *)
From Coq Require Import String Ascii NArith ZArith Lia Bool List Permutation.
From Coq Require Import ZifyBool ZifyNat ZifyN.
From Verif Require Import Base Facts Value Data Parse De Span Wp EnvOk Layout Lit Attr LexSafe LexWs LexRead DocSafe DocRead LexDoc Fuel Repr ReprFacts TypedRead TypedMain VRepr AnyRead AnyMain StructSpec.
Import ListNotations.
Open Scope N_scope.
Open Scope list_scope.
Open Scope m_scope.

Section WithEnv.
Context {E : Env} {X : XidOk E}.
Section Exts.
Variable e : exts.

(** as [tr], but [m] fails with [x] in [t] *)
Definition tf {A} (m : M A) (n : bool) (c : nat) (t : str) (D : str -> Prop) (x : err) : Prop :=
  forall T s r, inv T s -> rest s = t ++ r -> D r -> ext s = e -> nt s = n -> room c (lim s) ->
  wp m (fun _ _ => False) (fun y _ => y = x) s.
Lemma tf_stop {A B} (m : M A) (k : A -> M B) n c t D x : tf m n c t D x -> tf (bind m k) n c t D x.
Proof.
  intros H T s r J Hs Dr He Hn Hl. apply wp_bind. eapply wp_conseq; [apply (H T s r); auto| |auto]. now cbn beta.
Qed.
Lemma tf_bind {A B} (m : M A) (k : A -> M B) n n1 c t1 t2 (D1 D2 : str -> Prop) a x :
  tr e m n n1 c t1 D1 a -> tf (k a) n1 c t2 D2 x -> (forall r, D2 r -> D1 (t2 ++ r)) ->
  tf (bind m k) n c (t1 ++ t2) D2 x.
Proof.
  intros H1 H2 HD T s r J Hs Dr He Hn Hl. rewrite <- app_assoc in Hs. apply wp_bind.
  eapply wp_conseq; [apply (H1 T s (t2 ++ r)); auto| |now cbn beta]. cbn beta.
  intros a' s' (-> & R' & J' & E' & N' & L'). apply (H2 T s' r); auto. now rewrite L'.
Qed.
Lemma tf_bind_r {A B} (m : M A) (k : A -> M B) n n1 c t (D1 D2 : str -> Prop) a x :
  tr e m n n1 c [] D1 a -> tf (k a) n1 c t D2 x -> (forall r, D2 r -> D1 (t ++ r)) -> tf (bind m k) n c t D2 x.
Proof. intros H1 H2 HD. exact (tf_bind m k n n1 c [] t D1 D2 a x H1 H2 HD). Qed.
Lemma tf_text {A} (m : M A) n c t t' D x : tf m n c t D x -> t = t' -> tf m n c t' D x.
Proof. now intros H <-. Qed.
Lemma tf_D {A} (m : M A) n c t (D D' : str -> Prop) x : tf m n c t D x -> (forall r, D' r -> D r) -> tf m n c t D' x.
Proof. intros H HD T s r J Hs Dr He Hn Hl. apply (H T s r); auto. Qed.
Lemma tf_le {A} (m : M A) n c c' t D x : (c <= c')%nat -> tf m n c t D x -> tf m n c' t D x.
Proof. intros L H T s r J Hs Dr He Hn Hl. apply (H T s r); auto. eapply room_le; eassumption. Qed.
Lemma tf_fail {A} n c D x : tf (@fail A x) n c [] D x.
Proof. intros T s r J Hs Dr He Hn Hl. now apply wp_fail. Qed.
Lemma tf_get {B} (k : st -> M B) n c t D x :
  (forall s, ext s = e -> nt s = n -> tf (k s) n c t D x) -> tf (bind get k) n c t D x.
Proof. intros H T s r J Hs Dr He Hn Hl. apply wp_bind, wp_get. now apply (H s He Hn T s r). Qed.
Lemma tf_src {B} (k : str -> M B) n c t (D : str -> Prop) x :
  (forall r, D r -> tf (k (t ++ r)) n c t (fun r' => r' = r) x) -> tf (bind src k) n c t D x.
Proof.
  intros H T s r J Hs Dr He Hn Hl. apply wp_bind. apply wp_ok with (t ++ r) s; [unfold src; now rewrite Hs|].
  now apply (H r Dr T s r).
Qed.
Lemma tf_map_err {A} f (m : M A) n c t D x : tf m n c t D x -> tf (map_err f m) n c t D (f x).
Proof.
  intros H T s r J Hs Dr He Hn Hl. apply wp_map_err. eapply wp_conseq; [apply (H T s r); auto|auto|]. now intros y _ ->.
Qed.
Lemma tf_guard_with {A} b (m : M A) n c t D x : tf m n c t D x -> tf (guard_with b m) n (S c) t D x.
Proof.
  intros H T s r J Hs Dr He Hn Hl. Transparent wp. unfold wp, guard_with. Opaque wp.
  destruct (lim s) as [[|l]|] eqn:L; cbn [room] in Hl; [lia| |].
  - assert (W := H T (set_lim (Some l) s) r J Hs Dr He Hn). cbn [lim set_lim] in W.
    assert (RM : room c (Some l)) by (cbn; lia). specialize (W RM). Transparent wp. unfold wp in W. Opaque wp.
    destruct (m (set_lim (Some l) s)) as [a' s'|? s'| |]; try contradiction. exact W.
  - assert (RM : room c (lim s)) by now rewrite L. assert (W := H T s r J Hs Dr He Hn RM).
    Transparent wp. unfold wp in W. Opaque wp. destruct (m s) as [a' s'|? s'| |]; try contradiction. exact W.
Qed.

Section Fields.
Variable value_of : ty -> M val.
Variable deny : bool.
Variable fields : list (str * ty).
Notation loop := (struct_loop value_of deny fields).

(** after one entry and its comma *)
Lemma tf_field c p tp w1 w2 acc w0 fuel x t3 (D3 : str -> Prop) :
  good_field e value_of deny fields c p tp -> layout w0 -> (snd p <> None -> assoc (fst p) acc = None) ->
  layout w1 -> layout w2 -> (forall r, D3 r -> solid (t3 ++ r)) ->
  tf (loop fuel (known [p] ++ acc) true) false (S c) t3 D3 x ->
  tf (loop (S fuel) acc true) false (S c) (w0 ++ tp ++ w1 ++ c_comma :: w2 ++ t3) D3 x.
Proof.
  intros [k tk v tv w w' HK L L' FV] L0 NA L1 L2 SL NX. cbn [fst snd] in NA. cbn [struct_loop].
  eapply tf_text; [eapply (tf_bind _ _ false false (S c) (w0 ++ tk) ((w ++ c_colon :: w' ++ tv ++ w1 ++ c_comma :: w2) ++ t3) ident_end D3 (Some k))|texts].
  - apply tr_key; [cbn; tauto|assumption|intros r; eapply ident_opens; exact HK|]. apply tr_field_key; [assumption|].
    destruct v as [v|]; cbn [field_value] in FV; [destruct FV as (? & FV & _); congruence|now intros _].
  - destruct v as [v|]; cbn [field_value] in FV.
    + destruct FV as (ft & -> & G). rewrite NA by discriminate. cbn [known flat_map snd fst app] in NX.
      refine (tf_bind _ _ false false (S c) _ t3 solid D3 (v, true) _ _ NX SL). apply tr_colon_comma; auto.
    + destruct FV as (-> & _ & y & G). cbn [known flat_map snd fst app] in NX.
      refine (tf_bind _ _ false false (S c) _ t3 solid D3 (y, true) _ _ NX SL). apply tr_colon_comma; auto.
  - intros r _. rewrite <- !app_assoc. apply delim_ident_end, layout_delim; [assumption|]. cbn. tauto.
Qed.
Lemma tf_loop c l t : opened (good_field e value_of deny fields c) l t ->
  forall fuel w0 acc x t3 (D3 : str -> Prop), layout w0 -> (length l < fuel)%nat ->
  (forall k, In k (map fst acc) -> ~ In k (map fst (known l))) -> NoDup (map fst (known l)) ->
  (forall r, D3 r -> solid (t3 ++ r)) ->
  (forall fuel w0, layout w0 -> (0 < fuel)%nat -> tf (loop fuel (rev (known l) ++ acc) true) false (S c) (w0 ++ t3) D3 x) ->
  tf (loop fuel acc true) false (S c) (w0 ++ t ++ t3) D3 x.
Proof.
  induction 1 as [|p t w w' l ts G L L' I IH]; intros fuel w0 acc x t3 D3 L0 F NA ND SL NX; cbn [length] in F.
  - apply NX; [assumption|lia].
  - assert (EK : known (p :: l) = known [p] ++ known l) by (change (p :: l) with ([p] ++ l); apply known_app).
    rewrite EK, map_app in ND, NA. rewrite EK in NX. destruct fuel as [|fuel]; [lia|].
    eapply tf_text; [eapply (tf_field c p t w w' acc w0 fuel x (ts ++ t3) D3); auto|texts].
    + intros SP. apply assoc_none. intros IN. apply (NA _ IN). destruct p as [k [v|]]; [now left|contradiction].
    + intros r Dr. rewrite <- app_assoc. destruct I as [|p' t' w1 w1' l' ts' G' _ _ _]; [now apply SL|]. rewrite <- app_assoc.
      apply opens_solid. eapply good_field_opens; exact G'.
    + apply (IH fuel [] (known [p] ++ acc) x t3 D3); [constructor|lia| | |assumption|].
      * intros k IN. rewrite map_app in IN. apply in_app_or in IN as [IN|IN].
        -- intros IN2. destruct p as [k' [v|]]; [|destruct IN]. destruct IN as [<-|[]]. inversion ND; subst. contradiction.
        -- intros IN2. apply (NA k IN). apply in_or_app. now right.
      * destruct p as [k' [v|]]; [now inversion ND|exact ND].
      * intros fuel' w1 L1 F1. specialize (NX fuel' w1 L1 F1). rewrite rev_app_distr, <- app_assoc in NX.
        replace (rev (known [p])) with (known [p]) in NX by now destruct p as [k' [v|]]. exact NX.
Qed.
Lemma tf_duplicate c fuel acc w0 tk k : layout w0 -> (0 < fuel)%nat -> ident_lit tk k ->
  assoc k fields <> None -> assoc k acc <> None ->
  tf (loop fuel acc true) false (S c) (w0 ++ tk) ident_end (EDuplicateStructField k None).
Proof.
  intros L0 F HK KF KA. destruct fuel as [|fuel]; [lia|]. cbn [struct_loop].
  eapply tf_text; [eapply (tf_bind _ _ false false (S c) (w0 ++ tk) [] ident_end ident_end (Some k))|now rewrite app_nil_r].
  - apply tr_key; [cbn; tauto|assumption|intros r; eapply ident_opens; exact HK|]. apply tr_field_key; [assumption|]. contradiction.
  - destruct (assoc k fields); [|contradiction]. destruct (assoc k acc); [|contradiction]. apply tf_fail.
  - auto.
Qed.
Lemma tf_unknown c fuel acc w0 tk k : layout w0 -> (0 < fuel)%nat -> ident_lit tk k -> deny = true -> assoc k fields = None ->
  tf (loop fuel acc true) false (S c) (w0 ++ tk) ident_end (ENoSuchStructField k None).
Proof.
  intros L0 F HK DN KF. destruct fuel as [|fuel]; [lia|]. cbn [struct_loop]. apply tf_stop. unfold next_key.
  apply (tf_bind _ _ false false (S c) w0 tk opens ident_end true); [apply tr_has_more; [cbn; tauto|assumption]| |intros r _; eapply ident_opens; exact HK].
  apply tf_stop, tf_guard_with. unfold field_key.
  eapply tf_text; [eapply (tf_bind _ _ false false c tk [] ident_end ident_end k)|now rewrite app_nil_r].
  - apply tr_ident. exact HK.
  - rewrite KF, DN. apply tf_fail.
  - auto.
Qed.
Variable is_option : ty -> bool.
Lemma tf_missing n c acc f T fl2 : forall fl1, Forall (fun ft => assoc (fst ft) acc <> None \/ is_option (snd ft) = true) fl1 ->
  assoc f acc = None -> is_option T = false ->
  tf (collect is_option (fl1 ++ (f, T) :: fl2) acc) n c [] anything (EMissingStructField f None).
Proof.
  intros fl1 F N O. induction F as [|[k kt] fl1 H F IH]; cbn [app collect].
  - rewrite N, O. apply tf_stop, tf_fail.
  - cbn [fst snd] in H. destruct (assoc k acc) as [v|] eqn:Q.
    + eapply tf_bind_r with (D1 := anything) (a := v); [apply tr_ret| |now intros]. apply tf_stop. exact IH.
    + destruct H as [H|H]; [contradiction|]. rewrite H.
      eapply tf_bind_r with (D1 := anything) (a := VNone); [apply tr_ret| |now intros]. apply tf_stop. exact IH.
Qed.
Lemma opened_length c l t : opened (good_field e value_of deny fields c) l t -> (length l <= length t)%nat.
Proof.
  induction 1 as [|p t w w' l ts G L L' I IH]; [reflexivity|]. cbn [length]. repeat (rewrite app_length || cbn [length]).
  unfold str, char in *. lia.
Qed.
Lemma tf_body c l t w0 x t3 (D3 : str -> Prop) : opened (good_field e value_of deny fields c) l t -> layout w0 ->
  NoDup (map fst (known l)) -> (forall r, D3 r -> solid (t3 ++ r)) ->
  (forall fuel w0, layout w0 -> (0 < fuel)%nat -> tf (loop fuel (rev (known l)) true) false (S c) (w0 ++ t3) D3 x) ->
  tf (struct_body value_of deny fields is_option) false (S c) (w0 ++ t ++ t3) D3 x.
Proof.
  intros I L0 ND SL NX. unfold struct_body. apply tf_src. intros r Dr. apply tf_stop.
  apply (tf_loop c l t I (2 + length ((w0 ++ t ++ t3) ++ r)) w0 [] x t3); auto.
  - assert (H := opened_length c l t I). rewrite !app_length. unfold str, char in *. lia.
  - now intros r' ->; apply SL.
  - intros fuel w1 L1 F1. rewrite app_nil_r. eapply tf_D; [now apply NX|now intros r' ->].
Qed.
Lemma tf_body_missing c l t w0 f T fl1 fl2 : items (good_field e value_of deny fields c) l t -> layout w0 ->
  NoDup (map fst (known l)) -> fields = fl1 ++ (f, T) :: fl2 ->
  Forall (fun ft => In (fst ft) (map fst (known l)) \/ is_option (snd ft) = true) fl1 ->
  ~ In f (map fst (known l)) -> is_option T = false ->
  tf (struct_body value_of deny fields is_option) false (S c) (w0 ++ t) (begins c_rp) (EMissingStructField f None).
Proof.
  intros I L0 ND QF F NF O. unfold struct_body. apply tf_src. intros r B.
  eapply tf_text; [eapply (tf_bind _ _ false false (S c) (w0 ++ t) [] (begins c_rp) _ (rev (known l)))|now rewrite app_nil_r].
  - assert (H := tr_struct_loop e value_of deny fields c l t I (2 + length ((w0 ++ t) ++ r)) w0 true [] L0).
    rewrite app_nil_r in H. apply H; auto.
    assert (H' := items_length _ _ _ (good_field_opens e value_of deny fields c) I). rewrite !app_length. unfold str, char in *. lia.
  - rewrite QF. eapply tf_D; [apply tf_missing; [|apply assoc_none|exact O]|now intros].
    + eapply Forall_impl; [|exact F]. intros ft [H|H]; [left|now right]. intros Q.
      rewrite in_map_iff in H. destruct H as ([k v] & QK & IN). cbn [fst] in QK. subst k.
      rewrite (assoc_in (fst ft) v) in Q; [discriminate| |now apply -> in_rev].
      rewrite map_rev. now apply NoDup_rev.
    + rewrite map_rev, <- in_rev. exact NF.
  - now intros r' ->.
Qed.
End Fields.

(** an error in the body of a struct *)
Lemma tf_struct sf (fok : fk -> N -> Prop) tenv rec deny name fields tn tb c (D : str -> Prop) x : name_text e sf true name tn -> name <> [] ->
  tf (struct_body rec deny fields (is_option tenv)) false c tb D x ->
  tf (de_step tenv rec (TStruct deny name fields)) false (S c) (tn ++ c_lp :: tb) D (struct_error_name (Some name) x).
Proof.
  intros HN NE H. cbn [de_step].
  refine (tf_bind_r _ _ false false _ _ _ _ None _ (tr_no_range e name (map fst fields) false _) _ _);
    [|intros r _; rewrite <- app_assoc; eapply (name_no_range e sf fok); exact HN].
  apply tf_get. intros s _ ->. cbn iota.
  destruct (tr_name e sf true name tn HN) as (t1 & w & b & -> & L & G & _ & TR). rewrite <- app_assoc.
  refine (tf_bind _ _ false false _ t1 _ ident_end D b _ (TR false _) _ _);
    [|intros r _; rewrite <- app_assoc; now apply lp_ident_end].
  refine (tf_bind _ _ false false _ w _ solid D tt _ (tr_ws e w false _ L) _ _); [|intros; apply lp_solid].
  unfold struct_after_name. apply tf_get. intros s0 _ ->. cbn iota.
  refine (tf_bind _ _ false false _ [c_lp] tb anything D true _ (tr_char e c_lp false _) _ _); [|now intros].
  eapply tf_bind_r with (D1 := anything); [apply tr_nt| |now intros].
  apply tf_stop, tf_guard_with. destruct name as [|ch name]; [contradiction|]. cbn [negb is_nil andb]. now apply tf_map_err, tf_stop.
Qed.
End Exts.

(** ** Entries *)
Lemma any_good {FO : FloatOk E} e : x_unwrap_variant_newtypes e = false -> forall x t c, vrepr x t -> (vneed x <= c)%nat -> good e any_value c t x.
Proof.
  intros UV x t c V LE. assert (R := any_ready e UV x t V). split; [apply (R (length t) c); lia|].
  intros T s r K HR HK J Hs He Hn Hl. unfold any_value. apply wp_bind. eapply wp_ok; [reflexivity|].
  replace (2 * length (rest s) + 3)%nat with (S (2 * length (rest s) + 2)) by lia.
  eapply (proj2 (R (2 * length (rest s) + 2)%nat c ltac:(rewrite Hs, app_length; unfold str, char in *; lia) LE) T s r K); auto.
Qed.

(** ** Documents that fail *)
Lemma document_fails {A} o (m : M A) w0 at0 e body r x :
  layout w0 -> attrs_text at0 e -> value_start (body ++ r) ->
  (forall T s, inv T s -> rest s = body ++ r -> ext s = exts_or e (o_exts o) -> nt s = false ->
     lim s = o_limit o -> last_id s = None -> wp m (fun _ _ => False) (fun y _ => y = x) s) ->
  (options_from_str o m (w0 ++ at0 ++ body ++ r) <> RPanic) ->
  exists sp, options_from_str o m (w0 ++ at0 ++ body ++ r) = RError x sp.
Proof.
  intros L HA V HM NP. set (text := w0 ++ _) in *.
  assert (W : wp (document o m) (fun _ _ => False) (fun y _ => y = x) (init_state text)).
  { unfold document. apply wp_bind. eapply wp_conseq; [apply (wp_parser_new w0 at0 e (body ++ r) text); auto using init_inv| |now cbn beta].
    cbn beta. intros [] s1 (I1 & E1 & X1 & N1 & L1 & D1). apply wp_bind, wp_modify.
    apply wp_bind. eapply wp_conseq; [apply (HM text)| |auto].
    - exact I1.
    - exact E1.
    - cbn. rewrite X1. cbn. now rewrite exts_empty_or.
    - exact N1.
    - reflexivity.
    - exact D1.
    - now cbn beta. }
  unfold options_from_str, from_str, spanned in *. Transparent wp. unfold wp in W. Opaque wp.
  destruct (document o m (init_state text)) as [a s|y s| |]; try contradiction. subst y.
  destruct (span_error text s) as [sp|]; [eauto|contradiction].
Qed.
End WithEnv.

(** ** Texts of structs *)
Section Texts.
Context {E : Env} {X : XidOk E} {FO : FloatOk E}.
Variable e : exts.
Variable tenv : nat -> ty.
Variable fok : fk -> N -> Prop.

Notation field_entry := (field_entry e tenv fok).
Notation struct_head := (struct_head e).

Lemma one_entry deny fields c p t : NoDup (map fst fields) -> field_entry deny fields c p t ->
  exists n, forall f, (n <= f)%nat -> good_field e (de_ty tenv f) deny fields c p t.
Proof.
  intros ND [k T v tk w w' tv IN TV LE HK L L' RV|k x tk w w' tv NI DN UV LE HK L L' VR].
  - destruct (ok_good e (fun _ => True) tenv fok v tv T c) as (n & H); [split; [exact RV|now apply (repr_ok e (fun _ => True))]|assumption|assumption|].
    exists n. intros f LF. constructor; auto. exists T. split; [now apply assoc_in|auto].
  - exists 0%nat. intros f _. constructor; auto. split; [now apply assoc_none|]. split; [assumption|].
    exists x. now apply any_good.
Qed.
Lemma entries_good deny fields c l t : NoDup (map fst fields) -> items (field_entry deny fields c) l t ->
  exists n, forall f, (n <= f)%nat -> items (good_field e (de_ty tenv f) deny fields c) l t.
Proof.
  intros ND. induction 1 as [|p t w B L|p t w w' l ts B L L' I (n' & H')].
  - exists 0%nat. constructor.
  - destruct (one_entry deny fields c p t ND B) as (n & H). exists n. intros f LF. constructor; auto.
  - destruct (one_entry deny fields c p t ND B) as (n & H). exists (Nat.max n n'). intros f LF.
    constructor; auto; [apply H|apply H']; lia.
Qed.
Lemma opened_good deny fields c l t : NoDup (map fst fields) -> opened (field_entry deny fields c) l t ->
  exists n, forall f, (n <= f)%nat -> opened (good_field e (de_ty tenv f) deny fields c) l t.
Proof.
  intros ND. induction 1 as [|p t w w' l ts B L L' I (n' & H')].
  - exists 0%nat. constructor.
  - destruct (one_entry deny fields c p t ND B) as (n & H). exists (Nat.max n n'). intros f LF.
    constructor; auto; [apply H|apply H']; lia.
Qed.

Lemma head_reads T deny fields mk label h th tb rec c fs : struct_head T deny fields mk label h th ->
  tr e (struct_body rec deny fields (is_option tenv)) false false (S c) tb (begins c_rp) fs ->
  tr e (de_step tenv rec T) false false (h + c) (th ++ c_lp :: tb ++ [c_rp]) delim (mk fs).
Proof.
  intros [deny' name fields' tn NE HN|ename variants k deny' fields' tk w ND IN HI L] H; cbn [de_step].
  - refine (tr_bind_r e _ _ false false false _ _ _ _ None _ (tr_no_range e name (map fst fields') false _) _ _);
      [|intros r _; rewrite <- app_assoc; eapply (name_no_range e (fun _ => True) fok); exact HN].
    apply tr_get. intros s _ ->. cbn iota. eapply tr_named; [exact HN|now eexists|]. intros w0 L0 _.
    refine (tr_bind e _ _ false false false _ w0 _ solid _ tt _ (tr_ws e w0 false _ L0) _ _); [|intros; apply lp_solid].
    eapply tr_text; [eapply tr_D; [refine (tr_struct_after_name e name _ false _ tb [] _ (begins c_rp) (tr_map e _ _ _ _ _ _ _ _ H) l_nil _); auto|now intros]|].
    unfold parens. texts.
  - rewrite <- app_assoc. refine (tr_enum e ename false _ _ _ _ _ _).
    + refine (tr_enum_id e variants k tk (WStruct deny' fields') _ false false _ _ _ _ HI ND IN _ _ _); [| |lia].
      * cbn iota. apply tr_get. intros s _ _.
        refine (tr_bind e _ _ false false false _ w _ solid _ tt _ (tr_ws e w false _ L) _ _); [|intros; apply lp_solid].
        apply tr_map_err.
        eapply tr_text; [eapply tr_D; [refine (tr_struct_after_name e [] _ false _ tb [] _ (begins c_rp) (tr_map e _ _ _ _ _ _ _ _ H) l_nil _); auto|now intros]|].
        unfold parens. texts.
      * intros r _. rewrite <- app_assoc. now apply lp_ident_end.
    + intros r. rewrite <- app_assoc. eapply opens_solid, ident_opens; exact HI.
Qed.

Lemma wp_enum_id (variants : list (str * vty)) k w t r T s n : ident_lit t k -> NoDup (map fst variants) -> In (k, w) variants -> ident_end r ->
  inv T s -> rest s = t ++ r -> ext s = e -> nt s = n -> room 1 (lim s) ->
  wp (guard (k <- de_identifier ;;
            match assoc k variants with
            | Some w => ret (k, w)
            | None => fail (ENoSuchEnumVariant k None)
            end))
     (fun a s' => a = (k, w) /\ rest s' = r /\ inv T s' /\ ext s' = e /\ nt s' = n /\ lim s' = lim s /\ last_id s' = Some k)
     (fun _ _ => False) s.
Proof.
  intros HI ND IN IE J Hs He Hn Hl.
  assert (W : forall s, inv T s -> rest s = t ++ r -> ext s = e -> nt s = n ->
    wp (k <- de_identifier ;;
            match assoc k variants with
            | Some w => ret (k, w)
            | None => fail (ENoSuchEnumVariant k None)
            end)
     (fun a s' => a = (k, w) /\ rest s' = r /\ inv T s' /\ ext s' = e /\ nt s' = n /\ lim s' = lim s /\ last_id s' = Some k)
     (fun _ _ => False) s).
  { clear s J Hs He Hn Hl. intros s J Hs He Hn. apply wp_bind. unfold de_identifier. apply wp_bind.
    eapply wp_reads; [apply (reads_identifier _ _ HI)|exact J|exact Hs|exact IE|]. intros s1 R1 A1.
    apply wp_bind, wp_modify, wp_ret. rewrite (assoc_in k w variants ND IN). apply wp_ret.
    destruct (adv_keeps _ _ _ A1) as (K1 & K2 & K3). destruct A1 as (J1 & _).
    split; [reflexivity|]. split; [exact R1|]. split; [exact J1|]. cbn. repeat split; congruence. }
  match goal with |- wp (guard ?x) _ _ _ => set (m := x) in *; clearbody m end.
  Transparent wp. unfold guard, guard_with, wp. Opaque wp.
  destruct (lim s) as [[|l]|] eqn:QL; cbn [room] in Hl; [lia| |].
  - specialize (W (set_lim (Some l) s) J Hs He Hn). Transparent wp. unfold wp in W. Opaque wp.
    destruct (m (set_lim (Some l) s)) as [a' s'|? ?| |]; try contradiction.
    destruct W as (W1 & W2 & W3 & W4 & W5 & W6 & W7). cbn [lim set_lim] in W6. rewrite W6. repeat split; auto; try apply W3.
  - specialize (W s J Hs He Hn). Transparent wp. unfold wp in W. Opaque wp.
    destruct (m s) as [a' s'|? ?| |]; try contradiction. rewrite QL in W. exact W.
Qed.

Lemma head_fails T deny fields mk label h th tb rec c (D : str -> Prop) x : struct_head T deny fields mk label h th -> field_error x ->
  tf e (struct_body rec deny fields (is_option tenv)) false (S c) tb D x ->
  tf e (de_step tenv rec T) false (h + c) (th ++ c_lp :: tb) D (struct_error_name (Some label) x).
Proof.
  intros [deny' name fields' tn NE HN|ename variants k deny' fields' tk w ND IN HI L] FX H.
  - now apply (tf_struct e (fun _ => True) fok).
  - cbn [de_step]. eapply tf_bind_r with (D1 := anything); [apply tr_nt| |now intros].
    replace (struct_error_name (Some k) x) with (enum_error_name ename (struct_error_name (Some k) x)) by now destruct FX as [? []|? []|? []].
    apply tf_map_err, tf_guard_with.
    rewrite <- app_assoc.
    eapply tf_bind_r with (D1 := solid); [apply (tr_ws e [] false _ l_nil)| |intros r _; rewrite <- app_assoc; eapply opens_solid, ident_opens; exact HI].
    intros TT s r J Hs Dr He Hn Hl. rewrite <- app_assoc in Hs. apply wp_bind.
    eapply wp_conseq; [apply (wp_enum_id variants k (WStruct deny' fields') tk ((w ++ c_lp :: tb) ++ r) TT s false HI ND IN); [|exact J|exact Hs|exact He|exact Hn|]| |now cbn beta].
    { rewrite <- app_assoc. now apply lp_ident_end. }
    { eapply room_le; [|exact Hl]. lia. }
    cbn beta. intros a s1 (-> & R1 & J1 & E1 & N1 & L1 & LI). cbn iota. apply wp_bind, wp_get.
    rewrite LI. match goal with |- wp ?m _ _ _ => cut (tf e m false (S (S c)) (w ++ c_lp :: tb) D (struct_error_name (Some k) x)) end.
    { intros G. apply (G TT s1 r); auto. rewrite L1. exact Hl. }
    refine (tf_bind e _ _ false false _ w (c_lp :: tb) solid D tt _ (tr_ws e w false _ L) _ _); [|intros; apply lp_solid].
    replace x with (struct_error_name None x) by now destruct FX as [? []|? []|? []].
    apply tf_map_err.
    unfold struct_after_name. apply tf_get. intros s0 _ ->. cbn iota.
    refine (tf_bind e _ _ false false _ [c_lp] tb anything D true _ (tr_char e c_lp false _) _ _); [|now intros].
    eapply tf_bind_r with (D1 := anything); [apply tr_nt| |now intros].
    apply tf_stop, tf_guard_with. cbn [negb is_nil andb]. now apply tf_map_err, tf_stop.
Qed.
Lemma head_opens T deny fields mk label h th tb : struct_head T deny fields mk label h th -> opens (th ++ c_lp :: tb).
Proof.
  intros [deny' name fields' tn NE [XN|t w _ HI L _]|ename variants k deny' fields' tk w ND IN HI L].
  - cbn. split; [reflexivity|]. cbn. intuition discriminate.
  - rewrite <- app_assoc. eapply ident_opens; exact HI.
  - rewrite <- app_assoc. eapply ident_opens; exact HI.
Qed.

Lemma opened_known deny fields c l t : opened (field_entry deny fields c) l t ->
  forall k v, In (k, v) (known l) -> exists T, In (k, T) fields.
Proof.
  induction 1 as [|p t w w' l ts B _ _ _ IH]; intros k v IN; [destruct IN|].
  change (p :: l) with ([p] ++ l) in IN. rewrite known_app in IN. apply in_app_or in IN as [IN|IN]; [|eauto].
  destruct B as [k' T0 v' tk w0 w0' tv IN'|k' x tk w0 w0' tv NI]; [|destruct IN].
  destruct IN as [[= <- <-]|[]]. eauto.
Qed.

(** ** Documents *)
Variable o : opts.
Variables (w0 at0 : str) (a : exts).
Hypothesis LW : layout w0.
Hypothesis HA : attrs_text at0 a.
Hypothesis HE : e = exts_or a (o_exts o).
Variables (T : ty) (deny : bool) (fields : list (str * ty)) (mk : list (str * val) -> val) (label : str) (h : nat) (th w : str).
Hypothesis HH : struct_head T deny fields mk label h th.
Hypothesis ND : NoDup (map fst fields).
Hypothesis L : layout w.
Variable c : nat.
Hypothesis RM : room (h + c) (o_limit o).

Theorem struct_document ents t fs w1 : items (field_entry deny fields c) ents t -> final_layout w1 ->
  Forall2 (collected (is_option tenv) (rev (known ents))) fields fs -> NoDup (map fst (known ents)) ->
  exists n, forall f, (n <= f)%nat ->
    options_from_str o (de_ty tenv f T) (w0 ++ at0 ++ (th ++ c_lp :: (w ++ t) ++ [c_rp]) ++ w1) = RValue (mk fs).
Proof.
  intros I FL F NK. destruct (entries_good deny fields c ents t ND I) as (n & H). exists (S n). intros f LF.
  destruct f as [|f]; [lia|]. assert (LF' : (n <= f)%nat) by lia. specialize (H f LF').
  assert (TR := head_reads T deny fields mk label h th (w ++ t) (de_ty tenv f) c fs HH
    (tr_struct_body e (de_ty tenv f) deny fields (is_option tenv) c ents t w fs H L NK F)).
  eapply document_reads; [exact LW|exact HA| |exact FL|].
  - rewrite <- app_assoc. apply opens_value_start. exact (head_opens T deny fields mk label h th _ HH).
  - intros TT s J Hs He Hn Hl _. rewrite <- HE in He.
    eapply wp_conseq; [apply (TR TT s w1); auto; [now apply final_delim|now rewrite Hl]| |auto]. cbn beta. tauto.
Qed.
Lemma failing_document f tb (D : str -> Prop) r x : field_error x -> D r ->
  tf e (struct_body (de_ty tenv f) deny fields (is_option tenv)) false (S c) tb D x ->
  exists sp, options_from_str o (de_ty tenv (S f) T) (w0 ++ at0 ++ (th ++ c_lp :: tb) ++ r) =
    RError (struct_error_name (Some label) x) sp.
Proof.
  intros FX Dr TB. assert (TR := head_fails T deny fields mk label h th tb (de_ty tenv f) c D x HH FX TB).
  eapply document_fails; [exact LW|exact HA| | |apply no_panic].
  - rewrite <- app_assoc. apply opens_value_start. exact (head_opens T deny fields mk label h th _ HH).
  - intros TT s J Hs He Hn Hl _. rewrite <- HE in He. apply (TR TT s r); auto. now rewrite Hl.
Qed.
Theorem struct_duplicate ents t tk k r : opened (field_entry deny fields c) ents t -> NoDup (map fst (known ents)) ->
  In k (map fst (known ents)) -> ident_lit tk k -> ident_end r ->
  exists n, forall f, (n <= f)%nat -> exists sp,
    options_from_str o (de_ty tenv f T) (w0 ++ at0 ++ (th ++ c_lp :: w ++ t ++ tk) ++ r) =
    RError (EDuplicateStructField k (Some label)) sp.
Proof.
  intros I NK IN HK IE. destruct (opened_good deny fields c ents t ND I) as (n & H). exists (S n). intros f LF.
  destruct f as [|f]; [lia|]. assert (LF' : (n <= f)%nat) by lia. specialize (H f LF').
  eapply (failing_document f (w ++ t ++ tk) ident_end r (EDuplicateStructField k None)); [constructor|exact IE|].
  apply tf_body with (l := ents); auto.
  - intros r0 _. eapply opens_solid, ident_opens. exact HK.
  - intros fuel w2 L2 F2. apply tf_duplicate; auto.
    + apply in_map_iff in IN as ([k' v] & Q & IN). cbn [fst] in Q. subst k'.
      destruct (opened_known deny fields c ents t I k v IN) as (T0 & IN'). rewrite (assoc_in k T0 fields ND IN'). discriminate.
    + apply in_map_iff in IN as ([k' v] & Q & IN). cbn [fst] in Q. subst k'.
      rewrite (assoc_in k v); [discriminate| |now apply -> in_rev]. rewrite map_rev. now apply NoDup_rev.
Qed.
Theorem struct_unknown ents t tk k r : opened (field_entry deny fields c) ents t -> NoDup (map fst (known ents)) ->
  deny = true -> ~ In k (map fst fields) -> ident_lit tk k -> ident_end r ->
  exists n, forall f, (n <= f)%nat -> exists sp,
    options_from_str o (de_ty tenv f T) (w0 ++ at0 ++ (th ++ c_lp :: w ++ t ++ tk) ++ r) =
    RError (ENoSuchStructField k (Some label)) sp.
Proof.
  intros I NK DN NI HK IE. destruct (opened_good deny fields c ents t ND I) as (n & H). exists (S n). intros f LF.
  destruct f as [|f]; [lia|]. assert (LF' : (n <= f)%nat) by lia. specialize (H f LF').
  eapply (failing_document f (w ++ t ++ tk) ident_end r (ENoSuchStructField k None)); [constructor|exact IE|].
  apply tf_body with (l := ents); auto.
  - intros r0 _. eapply opens_solid, ident_opens. exact HK.
  - intros fuel w2 L2 F2. apply tf_unknown; auto. now apply assoc_none.
Qed.
Theorem struct_missing ents t f0 T0 fl1 fl2 r : items (field_entry deny fields c) ents t -> NoDup (map fst (known ents)) ->
  fields = fl1 ++ (f0, T0) :: fl2 -> Forall (fun ft => In (fst ft) (map fst (known ents)) \/ is_option tenv (snd ft) = true) fl1 ->
  ~ In f0 (map fst (known ents)) -> is_option tenv T0 = false ->
  exists n, forall f, (n <= f)%nat -> exists sp,
    options_from_str o (de_ty tenv f T) (w0 ++ at0 ++ (th ++ c_lp :: w ++ t) ++ c_rp :: r) =
    RError (EMissingStructField f0 (Some label)) sp.
Proof.
  intros I NK QF F NI NO. destruct (entries_good deny fields c ents t ND I) as (n & H). exists (S n). intros f LF.
  destruct f as [|f]; [lia|]. assert (LF' : (n <= f)%nat) by lia. specialize (H f LF').
  eapply (failing_document f (w ++ t) (begins c_rp) (c_rp :: r) (EMissingStructField f0 None)); [constructor|now exists r|].
  eapply tf_body_missing; eassumption.
Qed.
End Texts.
