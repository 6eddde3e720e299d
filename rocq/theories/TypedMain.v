(** Every representation of a value of a type is read to that value. *)
From Coq Require Import String Ascii NArith ZArith Lia Bool List Permutation.
From Coq Require Import ZifyBool ZifyNat ZifyN.
From Verif Require Import Base Facts Value Data Parse De Span Wp EnvOk Layout Lit Attr LexSafe LexWs LexRead DocRead LexDoc Fuel Repr ReprFacts TypedRead AnyRead.
Import ListNotations.
Open Scope N_scope.
Open Scope list_scope.
Open Scope m_scope.

Lemma max_list_in l : forall n, In n l -> (n <= max_list l)%nat.
Proof. induction l as [|m l IH]; intros n []; cbn; [lia|]. assert (H' := IH n H). lia. Qed.
Lemma max_list_map {A} (f : A -> nat) l a : In a l -> (f a <= max_list (map f l))%nat.
Proof. intros H. apply max_list_in. now apply in_map. Qed.

Section WithEnv.
Context {E : Env} {X : XidOk E} {FO : FloatOk E}.
Section Exts.
Variable e : exts.
Variable sf : token -> Prop.
Variable tenv : nat -> ty.
Variable fok : fk -> N -> Prop.
Local Notation typed := (typed tenv fok).
Local Notation de_ty := (de_ty tenv).
Local Notation tr := (tr e).
Local Notation good := (good e).

(** ** References *)
Definition no_ref (t : ty) : Prop := match t with TRef _ => False | _ => True end.
Lemma peel t v : typed t v -> exists k t', no_ref t' /\ typed t' v /\ forall f, de_ty (k + f) t = de_ty f t'.
Proof.
  induction 1; try (eexists 0%nat, _; split; [|split; [econstructor; eassumption|reflexivity]]; exact Logic.I).
  destruct IHtyped as (k & t' & N & T & H'). exists (S k), t'. split; [assumption|]. split; [assumption|].
  intros f. cbn [plus De.de_ty de_step]. apply H'.
Qed.

(** [t] is read to [v], also right inside a variant if [v] keeps its brackets *)
Definition is_read (m : M val) (v : val) (t : str) : Prop :=
  tr m false false (need v) t delim v /\
  (unwraps e v = false -> exists b, tr m true b (need v) t delim v).
Definition ok (v : val) (t : str) : Prop :=
  forall ty, typed ty v -> exists n, forall f, (n <= f)%nat -> is_read (de_ty f ty) v t.
Lemma ok_intro v t : (forall ty, no_ref ty -> typed ty v -> exists n, forall f, (n <= f)%nat ->
  is_read (de_step tenv (de_ty f) ty) v t) -> ok v t.
Proof.
  intros H ty HT. destruct (peel ty v HT) as (k & t' & N & T & EQ). destruct (H t' N T) as (n & Hn).
  exists (k + S n)%nat. intros f L. replace f with (k + S (f - k - 1))%nat by lia. rewrite EQ. apply Hn. lia.
Qed.
(** tokens *)
Lemma ok_lex v t : (forall ty, no_ref ty -> typed ty v -> exists n, forall f n', (n <= f)%nat ->
  tr (de_step tenv (de_ty f) ty) n' n' (need v) t delim v) -> ok v t.
Proof.
  intros H. apply ok_intro. intros ty N T. destruct (H ty N T) as (n & Hn). exists n. intros f L.
  split; [now apply Hn|]. intros _. exists true. now apply Hn.
Qed.

(** ** Elements *)
Lemma ok_good v t ty c : both e sf ok v t -> typed ty v -> (need v <= c)%nat ->
  exists n, forall f, (n <= f)%nat -> good (de_ty f ty) c t v.
Proof.
  intros [R K] T L. destruct (K ty T) as (n & H). exists n. intros f LF. split.
  - now apply repr_opens with e sf v.
  - apply trw_tr. eapply tr_le; [exact L|]. now apply H.
Qed.
Lemma seq_good ty c l t : items (both e sf ok) l t -> Forall (typed ty) l -> (forall v, In v l -> (need v <= c)%nat) ->
  exists n, forall f, (n <= f)%nat -> items (fun v t => good (de_ty f ty) c t v) l t.
Proof.
  induction 1 as [|v t w B L|v t w w' l ts B L L' I IH]; intros F N.
  - exists 0%nat. constructor.
  - inversion F as [|v' l' F1 F2]; subst. destruct (ok_good v t ty c) as (n & H); auto. { apply N. now left. }
    exists n. intros f LF. constructor; auto.
  - inversion F as [|v' l' F1 F2]; subst. destruct (ok_good v t ty c) as (n & H); auto. { apply N. now left. }
    destruct IH as (n' & H'); auto. { intros v' IN. apply N. now right. }
    exists (Nat.max n n'). intros f LF. constructor; auto; [apply H|apply H']; lia.
Qed.
Lemma tuple_good c l t : items (both e sf ok) l t -> forall ts, Forall2 typed ts l -> (forall v, In v l -> (need v <= c)%nat) ->
  exists n, forall f, (n <= f)%nat -> exists ps, map fst ps = map (de_ty f) ts /\ map snd ps = l /\
    items (fun p t => good (fst p) c t (snd p)) ps t.
Proof.
  induction 1 as [|v t w B L|v t w w' l tx B L L' I IH]; intros ts F N; inversion F as [|x v' l0 l' F1 F2]; subst.
  - exists 0%nat. intros f _. exists []. repeat split. constructor.
  - inversion F2; subst.
    destruct (ok_good v t x c) as (n & H); auto. { apply N. now left. }
    exists n. intros f LF. exists [(de_ty f x, v)]. split; [reflexivity|]. split; [reflexivity|]. constructor; auto. cbn. auto.
  - destruct (ok_good v t x c) as (n & H); auto. { apply N. now left. }
    destruct (IH l0) as (n' & H'); auto. { intros v' IN. apply N. now right. }
    exists (Nat.max n n'). intros f LF. destruct (H' f) as (ps & M1 & M2 & I'); [lia|].
    exists ((de_ty f x, v) :: ps). cbn [map fst snd]. split; [congruence|]. split; [congruence|].
    constructor; auto. cbn. apply H. lia.
Qed.
Lemma map_good kt vt c l t : items (entry (both e sf ok) (both e sf ok)) l t ->
  Forall (fun kv => typed kt (fst kv) /\ typed vt (snd kv)) l ->
  (forall kv, In kv l -> (need (fst kv) <= c /\ need (snd kv) <= c)%nat) ->
  exists n, forall f, (n <= f)%nat -> items (good_entry e (de_ty f kt) (de_ty f vt) c) l t.
Proof.
  assert (ONE : forall kv t, entry (both e sf ok) (both e sf ok) kv t -> typed kt (fst kv) -> typed vt (snd kv) ->
    (need (fst kv) <= c)%nat -> (need (snd kv) <= c)%nat ->
    exists n, forall f, (n <= f)%nat -> good_entry e (de_ty f kt) (de_ty f vt) c kv t).
  { intros kv t0 [k tk v tv w w' BK L L' BV] TK TV NK NV. cbn [fst snd] in *.
    destruct (ok_good k tk kt c BK TK NK) as (n & H). destruct (ok_good v tv vt c BV TV NV) as (n' & H').
    exists (Nat.max n n'). intros f LF. constructor; auto; [apply H|apply H']; lia. }
  induction 1 as [|v t w B L|v t w w' l ts B L L' I IH]; intros F N.
  - exists 0%nat. constructor.
  - inversion F as [|? ? [F1 F2] F3]; subst. destruct (N v) as [N1 N2]; [now left|].
    destruct (ONE v t B F1 F2 N1 N2) as (n & H). exists n. intros f LF. constructor; auto.
  - inversion F as [|? ? [F1 F2] F3]; subst. destruct (N v) as [N1 N2]; [now left|].
    destruct (ONE v t B F1 F2 N1 N2) as (n & H).
    destruct IH as (n' & H'); auto. { intros v' IN. apply N. now right. }
    exists (Nat.max n n'). intros f LF. constructor; auto; [apply H|apply H']; lia.
Qed.
(** the declared fields, in the order of the text *)
Definition some_field (p : str * val) : str * option val := (fst p, Some (snd p)).
Lemma fields_good deny fields c l t : items (entry field_key_text (both e sf ok)) l t -> NoDup (map fst fields) ->
  Forall (fun fv => exists t, In (fst fv, t) fields /\ typed t (snd fv)) l ->
  (forall fv, In fv l -> (need (snd fv) <= c)%nat) ->
  exists n, forall f, (n <= f)%nat -> items (good_field e (de_ty f) deny fields c) (map some_field l) t.
Proof.
  intros I ND.
  assert (ONE : forall kv t, entry field_key_text (both e sf ok) kv t -> (exists t, In (fst kv, t) fields /\ typed t (snd kv)) ->
    (need (snd kv) <= c)%nat -> exists n, forall f, (n <= f)%nat -> good_field e (de_ty f) deny fields c (some_field kv) t).
  { intros kv t0 [k tk v tv w w' BK L L' BV] (ft & IN & TV) NV. cbn [fst snd] in *.
    destruct (ok_good v tv ft c BV TV NV) as (n' & H').
    exists n'. intros f LF. constructor; auto. exists ft. split; [now apply assoc_in|auto]. }
  induction I as [|v t w B L|v t w w' l ts B L L' I IH]; intros F N.
  - exists 0%nat. constructor.
  - inversion F as [|? ? F1 F2]; subst.
    destruct (ONE v t B F1 (N v (or_introl eq_refl))) as (n & H). exists n. intros f LF. cbn [map]. constructor; auto.
  - inversion F as [|? ? F1 F2]; subst.
    destruct (ONE v t B F1 (N v (or_introl eq_refl))) as (n & H).
    destruct IH as (n' & H'); auto. { intros v' IN. apply N. now right. }
    exists (Nat.max n n'). intros f LF. cbn [map]. constructor; auto; [apply H|apply H']; lia.
Qed.
Lemma known_some l : known (map some_field l) = l.
Proof. induction l as [|[k v] l IH]; [reflexivity|]. change (known (map some_field ((k, v) :: l))) with ((k, v) :: known (map some_field l)). now rewrite IH. Qed.
Lemma some_field_fst l : map fst (map some_field l) = map fst l.
Proof. rewrite map_map. reflexivity. Qed.
Lemma fields_collected is_option fields fs fs' : NoDup (map fst fields) -> map fst fs = map fst fields -> Permutation fs fs' ->
  Forall2 (collected is_option (rev fs')) fields fs.
Proof.
  intros ND EQ P.
  assert (NDA : NoDup (map fst (rev fs'))).
  { eapply Permutation_NoDup; [|rewrite <- EQ in ND; exact ND]. apply Permutation_map.
    etransitivity; [exact P|apply Permutation_rev]. }
  assert (INA : forall p, In p fs -> In p (rev fs')).
  { intros p IN. rewrite <- in_rev. eapply Permutation_in; eassumption. }
  revert INA. generalize (rev fs'), NDA. clear - EQ. intros acc NDA. revert EQ. revert fs.
  induction fields as [|[k t] fields IH]; intros [|[k' v] fs] EQ INA; try discriminate; constructor.
  - cbn in EQ. injection EQ as -> EQ. split; [reflexivity|]. cbn [fst snd].
    rewrite (assoc_in k v acc NDA); [reflexivity|]. apply INA. now left.
  - cbn in EQ. injection EQ as -> EQ. apply IH; [assumption|]. intros p IN. apply INA. now right.
Qed.
(** the body of a struct *)
Lemma struct_good deny fields fs fs' t w0 (g : list (str * val) -> val) is_option : NoDup (map fst fields) -> map fst fs = map fst fields ->
  Forall (fun fv => exists t, In (fst fv, t) fields /\ typed t (snd fv)) fs -> Permutation fs fs' ->
  items (entry field_key_text (both e sf ok)) fs' t -> layout w0 ->
  exists n, forall f, (n <= f)%nat ->
    tr (l <- struct_body (de_ty f) deny fields is_option ;; ret (g l)) false false
       (S (max_list (map (fun kv => need (snd kv)) fs))) (w0 ++ t) (begins c_rp) (g fs).
Proof.
  intros ND EQ F P I L0.
  destruct (fields_good deny fields (max_list (map (fun kv => need (snd kv)) fs)) fs' t I ND) as (n & H).
  - eapply Permutation_Forall; eassumption.
  - intros fv IN. apply (max_list_map (fun kv => need (snd kv))). eapply Permutation_in; [symmetry; exact P|assumption].
  - exists n. intros f LF. apply tr_map.
    apply (tr_struct_body e (de_ty f) deny fields is_option _ (map some_field fs') t w0 fs); auto.
    + rewrite known_some. eapply Permutation_NoDup; [apply Permutation_map; exact P|]. now rewrite EQ.
    + rewrite known_some. now apply fields_collected.
Qed.
Lemma tuple_body ts l t w0 (g : list val -> val) : Forall2 typed ts l -> items (both e sf ok) l t -> layout w0 ->
  exists n, forall f, (n <= f)%nat -> exists w1 t1 (D : str -> Prop), w0 ++ t = t1 ++ w1 /\ layout w1 /\
    (forall r, begins c_rp r -> D (w1 ++ r)) /\
    tr (l <- tuple_elems (map (de_ty f) ts) 0 true ;; ret (g l)) false false (S (max_list (map need l))) t1 D (g l).
Proof.
  intros F I L0. destruct (tuple_good (max_list (map need l)) l t I ts F) as (n & H); [intros; now apply max_list_map|].
  exists n. intros f LF. destruct (H f LF) as (ps & M1 & M2 & I').
  destruct (tr_tuple_elems e _ ps t I' w0 true 0%nat L0 (or_introl eq_refl)) as (w1 & t1 & D & EQ & L1 & _ & HD & TR).
  exists w1, t1, D. split; [assumption|]. split; [assumption|]. split; [assumption|].
  rewrite M1, M2 in TR. now apply tr_map.
Qed.

(** ** Arguments *)
Definition targ (m : M val) (c : nat) (t : str) (v : val) : Prop :=
  forall T s r, inv T s -> rest s = t ++ r -> begins c_rp r -> ext s = e -> nt s = x_unwrap_variant_newtypes e -> room c (lim s) ->
  wp m (fun v' s' => v' = v /\ (exists w, tail w /\ rest s' = w ++ r) /\ inv T s' /\ ext s' = e /\ lim s' = lim s)
     (fun _ _ => False) s.
Lemma tail_delim w r : tail w -> begins c_rp r -> delim (w ++ r).
Proof.
  intros [w0 L|w0 w1 L L1] (r' & ->); [apply layout_delim; [assumption|cbn; tauto]|].
  rewrite <- app_assoc. apply layout_delim; [assumption|cbn; tauto].
Qed.
Lemma tr_targ m n n' c t w v : n = x_unwrap_variant_newtypes e -> tail w -> tr m n n' c t delim v -> targ m c (t ++ w) v.
Proof.
  intros HN TL H T s r J Hs HB He Hn Hl. rewrite <- app_assoc in Hs. subst n.
  eapply wp_conseq; [apply (H T s (w ++ r)); auto; now apply tail_delim| |auto]. cbn beta.
  intros v' s' (-> & R & J' & E' & _ & L'). split; [reflexivity|]. split; [now exists w|]. auto.
Qed.
Lemma tr_targ_exact m n n' c t v : n = x_unwrap_variant_newtypes e -> tr m n n' c t (begins c_rp) v -> targ m c t v.
Proof.
  intros HN H T s r J Hs HB He Hn Hl. subst n.
  eapply wp_conseq; [apply (H T s r); auto| |auto]. cbn beta.
  intros v' s' (-> & R & J' & E' & _ & L'). split; [reflexivity|].
  split; [exists []; split; [repeat constructor|assumption]|]. auto.
Qed.
Lemma targ_le m c c' t v : (c <= c')%nat -> targ m c t v -> targ m c' t v.
Proof. intros L H T s r J Hs HB He Hn Hl. apply H; auto. eapply room_le; eassumption. Qed.
Lemma solid_not_dotdot w r : tail w -> solid w -> begins c_rp r -> starts_with s_dotdot (w ++ r) = false.
Proof.
  intros [w0 L|w0 w1 L L1] S (r' & ->);
    (destruct (layout_head w0 L) as [->|(c & w' & -> & [H| ->])]; [reflexivity|cbn in S|cbn in S]).
  - destruct S as [S _]. congruence.
  - now destruct S as [_ S].
  - destruct S as [S _]. congruence.
  - now destruct S as [_ S].
Qed.

(** ** Texts that are no ranges *)
Definition no_range (name : str) (fields : list str) (r : str) : Prop :=
  num_start r = false /\ starts_with s_dotdot r = false /\
  (name = s_RangeFrom -> fields = [s_start] -> starts_not (fun c => (c =? 105) || (c =? 78)) r).
Lemma dotdoteq_dotdot r : starts_with s_dotdot r = false -> starts_with s_dotdoteq r = false.
Proof.
  unfold starts_with. change s_dotdoteq with [46; 46; c_eq]. change s_dotdot with [46; 46]. cbn [strip_prefix].
  destruct r as [|a r]; [reflexivity|]. destruct (46 =? a); [|reflexivity].
  destruct r as [|b r]; [reflexivity|]. now destruct (46 =? b).
Qed.
Lemma tr_check_ident_false w n c : tr (check_ident w) n n c [] (fun r => ident_at w r = false) false.
Proof.
  intros T s r J Hs Dr He Hn Hl. eapply wp_ok; [rewrite check_ident_eq, Hs; cbn [app]; now rewrite Dr|].
  repeat split; auto; apply J.
Qed.
Lemma strs_eqb_eq a : forall b, strs_eqb a b = true -> a = b.
Proof.
  induction a as [|x a IH]; intros [|y b]; cbn; try discriminate; [reflexivity|].
  intros H. apply andb_prop in H as [H1 H2]. apply str_eqb_eq in H1 as ->. f_equal. now apply IH.
Qed.
Lemma tr_no_range name fields n c : tr (range_prologue name fields) n n c [] (no_range name fields) None.
Proof.
  unfold range_prologue. apply tr_src. intros r (NS & DD & HI). cbn [app]. rewrite NS, andb_false_r, DD, (dotdoteq_dotdot r DD).
  rewrite !andb_false_r. cbn [orb]. cbn iota.
  eapply tr_bind_l with (D1 := fun r' => r' = r) (a := false); [|apply tr_ret|auto].
  destruct (strs_eqb fields [s_start] && str_eqb name s_RangeFrom && negb (is_nil r)) eqn:C; [|apply tr_ret].
  apply andb_prop in C as [C _]. apply andb_prop in C as [C1 C2]. apply strs_eqb_eq in C1. apply str_eqb_eq in C2.
  specialize (HI C2 C1).
  do 5 (eapply tr_bind_l with (a := false); [apply tr_check_ident_false| |intros r' ->; eapply starts_not_ident_at; [|exact HI]; reflexivity]; cbn iota).
  eapply tr_D; [apply tr_check_ident_false|]. intros r' ->. eapply starts_not_ident_at; [|exact HI]; reflexivity.
Qed.
Lemma no_range_char name fields c r : In c [c_lp; c_rp; c_comma] -> no_range name fields (c :: r).
Proof. intros H. cbn in H. destruct H as [<-|[<-|[<-|[]]]]; repeat split. Qed.
Lemma first_not_digit c : is_ident_first_char c = true -> is_digit c = false.
Proof.
  intros H. destruct (is_digit c) eqn:DG; [|reflexivity]. unfold is_ident_first_char in H.
  rewrite xid_start_ascii in H by (unfold is_digit in DG; lia). unfold is_alpha, is_digit in *. lia.
Qed.
Lemma first_ascii c : is_ident_first_char c = true -> c < 128 -> is_alpha c = true \/ c = 95.
Proof. intros H L. unfold is_ident_first_char in H. rewrite xid_start_ascii in H by assumption. unfold is_alpha in *. lia. Qed.
Lemma ident_no_range name fields t k r : ident_lit t k -> ident_end r ->
  (name = s_RangeFrom -> fields = [s_start] -> k = s_RangeFrom \/ k = s_start) -> no_range name fields (t ++ r).
Proof.
  intros HI IE HN. destruct HI as [c n HF HC|n NE HR].
  - assert (A : c = c_plus \/ c = c_minus \/ c = c_dot -> False).
    { intros H. assert (L : c < 128) by (cbn in H; lia). destruct (first_ascii c HF L) as [A|A]; unfold is_alpha in A; cbn in *; lia. }
    split; [|split].
    + cbn [app num_start]. unfold is_number_start. rewrite (first_not_digit c HF).
      destruct (c =? c_b) eqn:CB.
      * apply N.eqb_eq in CB as ->. cbn [negb orb]. rewrite andb_comm. change s_bsq with [c_b; 39]. unfold starts_with. cbn [strip_prefix].
        change (c_b =? c_b) with true. cbn iota. destruct n as [|d n]; cbn [app].
        -- destruct r as [|d r]; [reflexivity|]. destruct (39 =? d) eqn:Q; [|reflexivity]. apply N.eqb_eq in Q as <-.
           unfold ident_end in IE. destruct IE as (_ & _ & _ & IE). now contradiction IE.
        -- cbn in HC. apply andb_prop in HC as [HC _]. destruct (39 =? d) eqn:Q; [|reflexivity]. apply N.eqb_eq in Q as <-.
           rewrite xid_continue_ascii in HC by reflexivity. discriminate.
      * destruct (c =? c_plus) eqn:C1; [apply N.eqb_eq in C1; exfalso; apply A; auto|]. destruct (c =? c_minus) eqn:C2; [apply N.eqb_eq in C2; exfalso; apply A; auto|].
        destruct (c =? c_dot) eqn:C3; [apply N.eqb_eq in C3; exfalso; apply A; auto|]. reflexivity.
    + change s_dotdot with [46; 46]. unfold starts_with. cbn [app strip_prefix]. destruct (46 =? c) eqn:C3; [apply N.eqb_eq in C3; exfalso; apply A; auto|reflexivity].
    + intros H1 H2. destruct (HN H1 H2) as [K|K]; injection K as -> _; reflexivity.
  - repeat split.
Qed.

(** ** Ranges *)
Lemma resolve_typed t v : typed t v -> typed (resolve tenv t) v /\ no_ref (resolve tenv t).
Proof.
  intros H. destruct t; try (split; [exact H|exact Logic.I]).
  cbn [resolve]. inversion H; subst. split; [assumption|]. destruct (tenv n); try exact Logic.I. exfalso. eapply H1. reflexivity.
Qed.
Lemma bound_num v t T : bound v t -> typed T v -> exists n, num_text n t /\ num_into n (resolve tenv T) = Some v.
Proof.
  intros HB HT. apply resolve_typed in HT as [HT NR]. set (U := resolve tenv T) in *. clearbody U.
  destruct HB as [k k' z t HN H128|k k' z t HN H128|k b t HN|b t HN|b t HN]; (eexists; split; [exact HN|]); inversion HT; subst; try contradiction; cbn [num_into].
  - match goal with H : in_range _ _ = true |- _ => rewrite H end. destruct (is_128 k'); [rewrite H128 by reflexivity|]; reflexivity.
  - now rewrite H128.
  - now destruct k.
  - reflexivity.
  - reflexivity.
Qed.
Lemma dotdot_float r : float_end (s_dotdot ++ r).
Proof. right. now exists r. Qed.
Lemma dotdoteq_float r : float_end (s_dotdoteq ++ r).
Proof. right. now exists (c_eq :: r). Qed.
Lemma num_text_first n t r : num_text n t -> exists c t', t ++ r = c :: t' /\ c <> c_eq.
Proof.
  intros H. assert (W : num_lead (t ++ r) \/ ~ wordless (t ++ r)).
  { destruct H as [sg neg p base ds z k SG BP N LK|k t z SP HI R|t b PT RD|k t b PT RD| | | | |k t f SF]; rewrite <- ?app_assoc.
    - left. assert (H := int_shape _ _ _ _ _ _ SG BP N). destruct H as (sg' & neg' & c & t' & Q & SG' & DC). rewrite !app_assoc in *. rewrite Q. destruct SG'; cbn; auto.
    - left. destruct HI as [sg neg p base ds z SG BP N]. assert (H := int_shape _ _ _ _ _ _ SG BP N). destruct H as (sg' & neg' & c & t' & Q & SG' & DC). rewrite !app_assoc in *. rewrite Q. destruct SG'; cbn; auto.
    - left. destruct (fs_head _ (pointed_shape t PT)) as (sg & neg & c & t' & -> & SG & DC). destruct SG; cbn; auto.
    - left. destruct (fs_head _ (pointed_shape t PT)) as (sg & neg & c & t' & -> & SG & DC). destruct SG; cbn; auto.
    - right. discriminate.
    - right. discriminate.
    - left. cbn. auto.
    - left. cbn. auto.
    - destruct SF; [right; discriminate|left; cbn; auto|right; discriminate|left; cbn; auto]. }
  destruct (t ++ r) as [|c t']; [destruct W as [[]|W]; exfalso; now apply W|]. exists c, t'. split; [reflexivity|]. intros ->.
  destruct W as [W|W]; [cbn in W; intuition discriminate|now apply W].
Qed.
Lemma dotdot_not_eq n t r : num_text n t -> starts_with s_dotdoteq (s_dotdot ++ t ++ r) = false.
Proof.
  intros H. destruct (num_text_first n t r H) as (c & t' & Q & NC). unfold str, char in *. rewrite Q.
  apply not_true_is_false. intros W.
  apply starts_with_true in W as (r' & W). injection W as W _. now exfalso.
Qed.
Lemma num_lead_start t r : num_lead t -> num_start (t ++ r) = true.
Proof.
  destruct t as [|c t]; [intros []|]. cbn [num_lead app num_start]. unfold is_number_start, is_digit. intros H.
  rewrite (proj2 (N.eqb_neq c c_b)) by lia. cbn. lia.
Qed.
Ltac names := repeat (match goal with
  | |- context [str_eqb ?a ?b] => let v := eval vm_compute in (str_eqb a b) in change (str_eqb a b) with v
  | |- context [strs_eqb ?a ?b] => let v := eval vm_compute in (strs_eqb a b) in change (strs_eqb a b) with v
  end); cbn [andb orb negb].
Lemma tr_num n t b c : num_text n t -> tr any_number b b c t float_end n.
Proof. intros H. now apply tr_lex, reads_any_number. Qed.
Lemma delim_num n t b c : num_text n t -> tr any_number b b c t delim n.
Proof. intros H. eapply tr_D; [now apply tr_num|apply delim_float]. Qed.
Lemma tr_prologue_two (incl : bool) a b ta tb n c : num_text a ta -> num_text b tb -> num_lead ta ->
  tr (range_prologue (if incl then s_RangeInclusive else s_Range) [s_start; s_end]) n n c (ta ++ (if incl then s_dotdoteq else s_dotdot) ++ tb) delim (Some [a; b]).
Proof.
  intros HA HB HL. unfold range_prologue. apply tr_src. intros r D. rewrite <- app_assoc, num_lead_start by assumption.
  assert (Z : tr (b0 <- any_number ;; ret (Some [a; b0])) n n c tb delim (Some [a; b])).
  { eapply tr_bind_l; [eapply delim_num; eassumption|apply tr_ret|auto]. }
  destruct incl; names; cbv zeta iota.
  - eapply tr_bind; [eapply tr_num; eassumption| |intros; rewrite <- app_assoc; apply dotdoteq_float].
    eapply (tr_bind e _ _ n n n _ s_dotdoteq tb anything); [apply tr_lex, reads_consume_str| |now intros]. cbv iota.
    eapply (tr_bind e _ _ n n n _ [] tb anything); [apply tr_ret| |now intros]. names. cbv iota.
    eapply tr_D; [exact Z|]. now intros r' ->.
  - eapply tr_bind; [eapply tr_num; eassumption| |intros; rewrite <- app_assoc; apply dotdot_float].
    eapply tr_bind_r; [apply tr_lex, reads_consume_str_false| |intros r' _; rewrite <- app_assoc; eapply dotdot_not_eq; exact HB]. cbv iota.
    eapply (tr_bind e _ _ n n n _ s_dotdot tb anything); [apply tr_lex, reads_consume_str| |now intros]. names. cbv iota.
    eapply tr_D; [exact Z|]. now intros r' ->.
Qed.
(** the words for infinity and NaN *)
Definition word_check : M bool :=
  b <- check_ident s_inf ;; if b then ret true else
  b <- check_ident s_inff32 ;; if b then ret true else
  b <- check_ident s_inff64 ;; if b then ret true else
  b <- check_ident s_NaN ;; if b then ret true else
  b <- check_ident s_NaNf32 ;; if b then ret true else
  check_ident s_NaNf64.
Opaque check_ident.
Lemma word_check_true w r s : In w [s_inf; s_inff32; s_inff64; s_NaN; s_NaNf32; s_NaNf64] -> rest s = w ++ s_dotdot ++ r -> word_check s = Ok true s.
Proof.
  intros IN Hs. unfold word_check. assert (XC : xid_continue c_dot = false) by now rewrite xid_continue_ascii.
  assert (XF : xid_continue 102 = true) by now rewrite xid_continue_ascii.
  repeat (destruct IN as [<-|IN]; [repeat (unfold bind at 1; rewrite check_ident_eq, Hs; unfold ident_at; cbn; rewrite ?XC, ?XF; cbn); try (rewrite check_ident_eq, Hs; unfold ident_at; cbn; rewrite ?XC); reflexivity|]). contradiction.
Qed.
Transparent check_ident.
Lemma num_text_word n t : num_text n t -> num_lead t \/ In t [s_inf; s_inff32; s_inff64; s_NaN; s_NaNf32; s_NaNf64].
Proof.
  destruct 1 as [sg neg p base ds z k SG BP N LK|k t z SP HI R|t b PT RD|k t b PT RD| | | | |k t f SF].
  - left. assert (H := int_shape _ _ _ _ _ _ SG BP N). destruct H as (sg' & neg' & c & t' & Q & SG' & DC). rewrite Q. destruct SG'; cbn; auto.
  - left. destruct HI as [sg neg p base ds z SG BP N]. assert (H := int_shape _ _ _ _ _ _ SG BP N). destruct H as (sg' & neg' & c & t' & Q & SG' & DC). rewrite Q. destruct SG'; cbn; auto.
  - left. destruct (fs_head _ (pointed_shape t PT)) as (sg & neg & c & t' & -> & SG & DC). destruct SG; cbn; auto.
  - left. destruct (fs_head _ (pointed_shape t PT)) as (sg & neg & c & t' & -> & SG & DC). destruct SG; cbn; auto.
  - right. cbn. auto.
  - right. cbn. auto.
  - left. cbn. auto.
  - left. cbn. auto.
  - destruct SF; [right|left; cbn; auto|right|left; cbn; auto]; destruct k; cbn; auto 10.
Qed.
Lemma tr_prologue_from a ta n c : num_text a ta ->
  tr (range_prologue s_RangeFrom [s_start]) n n c (ta ++ s_dotdot) delim (Some [a]).
Proof.
  intros HA. unfold range_prologue. apply tr_src. intros r D.
  assert (Z : tr (a <- any_number ;; i <- consume_str s_dotdoteq ;; if i then fail EMessage else d <- consume_str s_dotdot ;; if d then ret (Some [a]) else fail EExpectedRangeSyntax)
    n n c (ta ++ s_dotdot) (fun r' => r' = r) (Some [a])).
  { eapply tr_bind; [eapply tr_num; eassumption| |intros; apply dotdot_float].
    eapply tr_bind_r; [apply tr_lex, reads_consume_str_false| |].
    - cbv iota. eapply tr_bind_l with (D1 := anything); [apply tr_lex, reads_consume_str|apply tr_ret|now intros].
    - intros r' ->. apply not_true_is_false. intros Q.
      apply starts_with_true in Q as (r' & Q). injection Q as Q. rewrite Q in D. exfalso. cbn in D. intuition discriminate. }
  assert (NE : is_nil ((ta ++ s_dotdot) ++ r) = false) by now destruct ta.
  rewrite NE. names. cbv zeta.
  eapply (tr_bind_r e _ _ n n n _ _ (fun r' => r' = (ta ++ s_dotdot) ++ r)); [| |now intros r' ->].
  2:{ cbv iota. instantiate (1 := true). cbv iota. exact Z. }
  destruct (num_start ((ta ++ s_dotdot) ++ r)) eqn:NS; [apply tr_ret|].
  destruct (num_text_word a ta HA) as [HL|HW].
  { rewrite <- app_assoc, num_lead_start in NS by assumption. discriminate. }
  intros T s r' J Hs -> He Hn Hl. cbn [app] in Hs. rewrite <- app_assoc in Hs. eapply wp_ok; [exact (word_check_true ta r s HW Hs)|].
  rewrite Hs, app_assoc. repeat split; auto; apply J.
Qed.
Lemma tr_prologue_to (incl : bool) a ta n c : num_text a ta ->
  tr (range_prologue (if incl then s_RangeToInclusive else s_RangeTo) [s_end]) n n c ((if incl then s_dotdoteq else s_dotdot) ++ ta) delim (Some [a]).
Proof.
  intros HA. unfold range_prologue. apply tr_src. intros r D.
  assert (Z : tr (a <- any_number ;; ret (Some [a])) n n c ta (fun r' => r' = r) (Some [a])).
  { eapply tr_D with (D := delim); [eapply tr_bind_l; [eapply delim_num; eassumption|apply tr_ret|auto]|]. now intros r' ->. }
  assert (NS : starts_with s_dotdot ((s_dotdot ++ ta) ++ r) = true) by reflexivity.
  assert (NQ : starts_with s_dotdoteq ((s_dotdoteq ++ ta) ++ r) = true) by reflexivity.
  destruct incl; names; cbv zeta.
  - rewrite NQ. eapply (tr_bind_r e _ _ n n n _ _ anything); [apply tr_ret| |now intros]. cbn [orb]. cbv iota.
    eapply (tr_bind e _ _ n n n _ s_dotdoteq ta anything); [apply tr_lex, reads_consume_str| |now intros]. exact Z.
  - rewrite NS, orb_true_r. eapply (tr_bind_r e _ _ n n n _ _ anything); [apply tr_ret| |now intros]. cbv iota.
    eapply tr_bind_r; [apply tr_lex, reads_consume_str_false| |intros r' _; rewrite <- app_assoc; eapply dotdot_not_eq; exact HA]. cbv iota.
    eapply (tr_bind e _ _ n n n _ s_dotdot ta anything); [apply tr_lex, reads_consume_str| |now intros]. exact Z.
Qed.
Lemma one_field k v (fields : list (str * ty)) : NoDup (map fst fields) -> map fst [(k, v)] = map fst fields ->
  Forall (fun fv => exists t, In (fst fv, t) fields /\ typed t (snd fv)) [(k, v)] -> exists T, fields = [(k, T)] /\ typed T v.
Proof.
  intros ND EQ F. destruct fields as [|[k1 T1] [|p l]]; try discriminate. injection EQ as <-. inversion F as [|? ? (T & IN & HT) _]; subst.
  destruct IN as [Q|[]]. injection Q as <-. eauto.
Qed.
Lemma two_fields k1 v1 k2 v2 (fields : list (str * ty)) : k1 <> k2 -> map fst [(k1, v1); (k2, v2)] = map fst fields ->
  Forall (fun fv => exists t, In (fst fv, t) fields /\ typed t (snd fv)) [(k1, v1); (k2, v2)] ->
  exists T1 T2, fields = [(k1, T1); (k2, T2)] /\ typed T1 v1 /\ typed T2 v2.
Proof.
  intros NK EQ F. destruct fields as [|[a1 T1] [|[a2 T2] [|p l]]]; try discriminate. injection EQ as <- <-.
  inversion F as [|? ? (U1 & IN1 & H1) F']; subst. inversion F' as [|? ? (U2 & IN2 & H2) _]; subst. cbn [fst snd In] in *.
  destruct IN1 as [Q|[Q|[]]]; injection Q; intros; subst; [|congruence]. destruct IN2 as [Q2|[Q2|[]]]; injection Q2; intros; subst; [congruence|]. eauto.
Qed.
Lemma tr_range v t ty f n c : range_text v t -> no_ref ty -> typed ty v -> tr (de_step tenv (de_ty f) ty) n n c t delim v.
Proof.
  intros H NR HT. destruct H as [a b ta tb HA HB HL|a b ta tb HA HB HL|a ta HA|b tb HB|b tb HB|].
  6:{ inversion HT; subst; try contradiction. cbn [de_step]. eapply tr_bind_l with (D1 := anything); [|apply tr_ret|now intros].
      unfold de_unit_struct. change (str_eqb s_RangeFull s_RangeFull) with true. cbv iota.
      eapply tr_bind_l with (D1 := anything); [apply tr_lex, reads_consume_str|apply tr_ret|now intros]. }
  all: inversion HT as [| | | | | | | | | | | | | | |deny nm0 fields fs0 ND EQ F| | | | |]; subst; try contradiction; cbn [de_step].
  - destruct (two_fields s_start _ s_end _ _ ltac:(discriminate) EQ F) as (T1 & T2 & -> & H1 & H2).
    destruct (bound_num _ _ _ HA H1) as (na & NA & IA). destruct (bound_num _ _ _ HB H2) as (nb & NB & IB).
    eapply tr_bind_l; [exact (tr_prologue_two false na nb ta tb n c NA NB HL)| |auto]. cbv iota. cbn [map fst snd range_fields]. rewrite IA, IB. apply tr_ret.
  - destruct (two_fields s_start _ s_end _ _ ltac:(discriminate) EQ F) as (T1 & T2 & -> & H1 & H2).
    destruct (bound_num _ _ _ HA H1) as (na & NA & IA). destruct (bound_num _ _ _ HB H2) as (nb & NB & IB).
    eapply tr_bind_l; [exact (tr_prologue_two true na nb ta tb n c NA NB HL)| |auto]. cbv iota. cbn [map fst snd range_fields]. rewrite IA, IB. apply tr_ret.
  - destruct (one_field _ _ _ ND EQ F) as (T & -> & H1). destruct (bound_num _ _ _ HA H1) as (na & NA & IA).
    eapply tr_bind_l; [exact (tr_prologue_from na ta n c NA)| |auto]. cbv iota. cbn [map fst snd range_fields]. rewrite IA. apply tr_ret.
  - destruct (one_field _ _ _ ND EQ F) as (T & -> & H1). destruct (bound_num _ _ _ HB H1) as (na & NA & IA).
    eapply tr_bind_l; [exact (tr_prologue_to false na tb n c NA)| |auto]. cbv iota. cbn [map fst snd range_fields]. rewrite IA. apply tr_ret.
  - destruct (one_field _ _ _ ND EQ F) as (T & -> & H1). destruct (bound_num _ _ _ HB H1) as (na & NA & IA).
    eapply tr_bind_l; [exact (tr_prologue_to true na tb n c NA)| |auto]. cbv iota. cbn [map fst snd range_fields]. rewrite IA. apply tr_ret.
Qed.

(** ** Arguments, up to their closing parenthesis *)
Lemma targ_bind {m c t v} (g : val -> val) : targ m c t v -> targ (x <- m ;; ret (g x)) c t (g v).
Proof.
  intros H T s r J Hs HB He Hn Hl. apply wp_bind. eapply wp_conseq; [apply (H T s r); auto| |auto]. cbn beta.
  intros v' s' (-> & W). apply wp_ret. split; [reflexivity|exact W].
Qed.
Lemma targ_map_err {m c t v} f : targ m c t v -> targ (map_err f m) c t v.
Proof.
  intros H T s r J Hs HB He Hn Hl. apply wp_map_err. eapply wp_conseq; [apply (H T s r); auto|auto|auto].
Qed.
Lemma targ_guard_with b m c t v : targ m c t v -> targ (guard_with b m) (S c) t v.
Proof.
  intros H T s r J Hs Dr He Hn Hl. Transparent wp. unfold wp, guard_with. Opaque wp.
  destruct (lim s) as [[|l]|] eqn:L; cbn [room] in Hl; [lia| |].
  - assert (W := H T (set_lim (Some l) s) r J Hs Dr He Hn). cbn [lim set_lim] in W.
    assert (RM : room c (Some l)) by (cbn; lia). specialize (W RM). Transparent wp. unfold wp in W. Opaque wp.
    destruct (m (set_lim (Some l) s)) as [a' s'|? s'| |]; try contradiction.
    destruct W as (-> & R' & J' & E' & L'). split; [reflexivity|]. split; [exact R'|]. split; [exact J'|]. split; [exact E'|].
    cbn [lim set_lim]. rewrite L'. reflexivity.
  - assert (RM : room c (lim s)) by now rewrite L. assert (W := H T s r J Hs Dr He Hn RM).
    Transparent wp. unfold wp in W. Opaque wp. destruct (m s) as [a' s'|? s'| |]; try contradiction. now rewrite L in W.
Qed.
Lemma targ_guard m c t v : targ m c t v -> targ (guard m) (S c) t v.
Proof. apply targ_guard_with. Qed.
Lemma tr_tail w n c : tail w -> exists b, tr comma n n c w (begins c_rp) b.
Proof.
  assert (C : closer c_rp) by (cbn; tauto).
  intros [w0 L|w0 w1 L L1]; [exists false; now apply tr_no_comma|exists true].
  eapply tr_D; [now apply tr_comma|]. intros r. now apply closer_solid.
Qed.
Lemma tr_arg_close m c t v w n (g : val -> val) e0 : targ m c t v -> layout w -> (forall r, solid (t ++ c_rp :: r)) ->
  tr (skip_ws ;;; (modify (fun s => set_nt (x_unwrap_variant_newtypes (ext s)) s) ;;;
      (x <- guard m ;; (modify (set_nt false) ;;; (comma ;;;
       (b <- consume_char c_rp ;; if b then ret (g x) else fail e0))))))
     n false (S c) (w ++ t ++ [c_rp]) anything (g v).
Proof.
  intros H L SL. refine (tr_bind e _ _ n n false (S c) w _ solid _ tt _ _ _ _); [now apply tr_ws| |intros r _; rewrite <- app_assoc; apply SL].
  refine (tr_bind_r e _ _ n _ false (S c) _ anything _ tt _ _ _ _); [apply tr_nt_ext| |now intros].
  intros T s r J Hs _ He Hn Hl. rewrite <- app_assoc in Hs. cbn [app] in Hs. apply wp_bind.
  assert (HB : begins c_rp (c_rp :: r)) by now exists r.
  eapply wp_conseq; [apply (targ_guard _ _ _ _ H T s (c_rp :: r)); auto| |auto]. cbn beta.
  intros x s' (-> & (w1 & TL & R') & J' & E' & L').
  destruct (tr_tail w1 false (S c) TL) as (b & TC).
  assert (Z : tr (modify (set_nt false) ;;; (comma ;;; (b <- consume_char c_rp ;; if b then ret (g v) else fail e0))) (nt s') false (S c) (w1 ++ [c_rp]) anything (g v)).
  { eapply tr_bind_r with (D1 := anything); [apply tr_nt| |now intros].
    refine (tr_bind e _ _ false false false (S c) w1 [c_rp] (begins c_rp) anything b (g v) TC _ _); [|intros r' _; now exists r'].
    eapply tr_bind_l with (D1 := anything); [apply tr_char|apply tr_ret|now intros]. }
  eapply wp_conseq; [apply (Z T s' r); auto; [rewrite R', <- app_assoc; reflexivity|exact Logic.I|now rewrite L']| |auto]. cbn beta.
  intros x s2 (-> & R2 & J2 & E2 & N2 & L2). repeat split; try apply J2; auto. congruence.
Qed.
Lemma both_opens v t r : both e sf ok v t -> opens (t ++ r).
Proof. intros [H _]. now apply repr_opens with e sf v. Qed.
Lemma arg_solid v t : arg e sf (both e sf ok) v t -> forall r, solid (t ++ c_rp :: r).
Proof.
  intros H r. assert (SR : solid (c_rp :: r)) by (apply solid_char; reflexivity || discriminate).
  induction H as [v t w _ BV _|w _ _ SW|name w _ _ SW|v t w _ _ RT _|name v t w _ BV _|l t _ I|name l t _ I|name fs fs' t _ P I|v t w w' w'' _ _ _ _ _ _ _|v t _ _ _ _ IH].
  - rewrite <- app_assoc. eapply opens_solid, both_opens; exact BV.
  - destruct w; [exact SR|exact SW].
  - destruct w; [exact SR|exact SW].
  - rewrite <- app_assoc. eapply opens_solid, range_opens; exact RT.
  - rewrite <- app_assoc. eapply opens_solid, both_opens; exact BV.
  - eapply items_solid; [|exact I|exact SR]. intros; eapply both_opens; eassumption.
  - eapply items_solid; [|exact I|exact SR]. intros; eapply both_opens; eassumption.
  - eapply items_solid; [|exact I|exact SR]. intros a t0 EN. eapply entry_opens; [|exact EN]. intros k tk HK r0. eapply ident_opens; exact HK.
  - apply solid_char; reflexivity || discriminate.
  - exact IH.
Qed.
Lemma targ_intro v t : (forall ty, no_ref ty -> typed ty v -> exists n, forall f, (n <= f)%nat ->
  targ (de_step tenv (de_ty f) ty) (need v) t v) ->
  forall ty, typed ty v -> exists n, forall f, (n <= f)%nat -> targ (de_ty f ty) (need v) t v.
Proof.
  intros H ty HT. destruct (peel ty v HT) as (k & t' & N & T & EQ). destruct (H t' N T) as (n & Hn).
  exists (k + S n)%nat. intros f L. replace f with (k + S (f - k - 1))%nat by lia. rewrite EQ. apply Hn. lia.
Qed.
Lemma entries_no_range name fields l t r : items (entry field_key_text (both e sf ok)) l t ->
  (forall k, In k (map fst l) -> In k fields) -> begins c_rp r -> no_range name fields (t ++ r).
Proof.
  intros I IN (r' & ->).
  assert (ONE : forall p t r, In (fst p) fields -> entry field_key_text (both e sf ok) p t -> no_range name fields (t ++ r)).
  { intros p t0 r INP EN. destruct EN as [k tk v tv w w' HK L L' _]. rewrite <- app_assoc. eapply ident_no_range; [exact HK| |].
    - rewrite <- app_assoc. apply delim_ident_end, layout_delim; [assumption|]. cbn. tauto.
    - intros _ ->. right. cbn in INP. destruct INP as [INP|[]]. auto. }
  destruct I as [|p t w EN _|p t w w' l ts EN _ _ _].
  - apply no_range_char. cbn. tauto.
  - rewrite <- app_assoc. apply (ONE p); [|assumption]. apply IN. now left.
  - rewrite <- app_assoc. apply (ONE p); [|assumption]. apply IN. now left.
Qed.
Lemma tr_any_D {A} (m : M A) n n' c t (D : str -> Prop) a : tr m n n' c t anything a -> tr m n n' c t D a.
Proof. intros H. eapply tr_D; [exact H|now intros]. Qed.
(** an option's words are not taken from other texts *)
Lemma no_option_ident n t r : In n [s_None; s_Some] -> no_option t -> delim r -> ident_at n (t ++ r) = false.
Proof.
  intros IN NO D. destruct (ident_at n (t ++ r)) eqn:IA; [exfalso|reflexivity].
  unfold ident_at in IA. destruct (strip_prefix n (t ++ r)) as [x|] eqn:SP; [|discriminate].
  apply strip_prefix_some in SP. apply app_eq_app in SP. destruct SP as (l & [[E1 E2]|[E1 E2]]).
  - apply (NO n l IN E1). unfold next_is_xid_continue in IA. subst x. destruct l as [|c l]; [exact Logic.I|]. cbn in *.
    now destruct (xid_continue c).
  - destruct l as [|c l].
    + rewrite app_nil_r in E1. subst t. apply (NO n [] IN); [now rewrite app_nil_r|exact Logic.I].
    + subst r. cbn [app] in D. assert (H := delim_xid _ D). cbn in H.
      assert (INC : In c (s_None ++ s_Some)).
      { apply in_or_app. destruct IN as [<-|[<-|[]]]; [left|right]; rewrite E1; apply in_or_app; right; now left. }
      rewrite xid_continue_ascii in H by (cbn in INC; lia).
      cbn in INC. unfold is_alpha, is_digit in H. lia.
Qed.
Lemma tr_implicit (m : M val) v t n n' c : x_implicit_some e = true -> no_option t -> tr m n n' c t delim v ->
  tr (de_option VNone (x <- m ;; ret (VSome x))) n n' (S c) t delim (VSome v).
Proof.
  intros IS NO H. unfold de_option.
  refine (tr_bind_r e _ _ n n n' _ t _ delim false _ (tr_lex e _ n _ _ _ _ (reads_consume_ident_false _)) _ _).
  2:{ intros r D. apply no_option_ident; [cbn; tauto|assumption|assumption]. }
  refine (tr_bind_r e _ _ n n n' _ t _ delim false _ (tr_lex e _ n _ _ _ _ (reads_consume_ident_false _)) _ _).
  2:{ intros r D. apply no_option_ident; [cbn; tauto|assumption|assumption]. }
  eapply tr_bind_r with (D1 := anything); [apply tr_ret| |now intros].
  apply tr_get. intros s -> _. rewrite IS. apply tr_guard_r. now apply tr_map.
Qed.
Lemma tr_explicit (m : M val) v t n c w w' : layout w -> layout w' -> targ m c t v -> (forall r, solid (t ++ c_rp :: r)) ->
  tr (de_option VNone (x <- m ;; ret (VSome x))) n false (S c) (s_Some ++ w ++ c_lp :: w' ++ t ++ [c_rp]) anything (VSome v).
Proof.
  intros L L' H SL. unfold de_option.
  refine (tr_bind_r e _ _ n n false _ _ _ _ false _ (tr_lex e _ n _ _ _ _ (reads_consume_ident_false _)) _ _); [|reflexivity].
  refine (tr_bind e _ _ n n false _ s_Some _ (starts_not xid_continue) _ true _ (tr_lex e _ n _ _ _ _ (reads_consume_ident _)) _ _).
  2:{ intros r _. rewrite <- app_assoc. apply ident_end_xid. now apply lp_ident_end. }
  eapply tr_text; [refine (tr_bind e _ _ n n false _ (w ++ [c_lp]) (w' ++ t ++ [c_rp]) anything _ true _ _ _ _)|texts]; [| |now intros].
  - refine (tr_bind e _ _ n n n _ w [c_lp] solid _ tt _ _ _ _); [now apply tr_ws|apply tr_char|].
    intros r _. apply solid_char; reflexivity || discriminate.
  - exact (tr_arg_close _ _ _ _ w' n (fun x => x) _ (targ_bind VSome H) L' SL).
Qed.
Lemma targ_implicit (m : M val) v t c : x_implicit_some e = true -> no_option t -> targ m c t v ->
  targ (de_option VNone (x <- m ;; ret (VSome x))) (S c) t (VSome v).
Proof.
  intros IS NO H T s r J Hs HB He Hn Hl. unfold de_option.
  assert (D : delim r) by (apply closer_delim with c_rp; [cbn; tauto|assumption]).
  assert (NOI : forall n, In n [s_None; s_Some] -> ident_at n (rest s) = false).
  { intros n IN. rewrite Hs. now apply no_option_ident. }
  apply wp_bind. eapply wp_ok; [apply consume_ident_false, NOI; cbn; tauto|]. cbn iota.
  apply wp_bind. eapply wp_ok; [apply consume_ident_false, NOI; cbn; tauto|]. cbn iota.
  apply wp_bind, wp_ret. cbn iota. apply wp_bind, wp_get. rewrite He, IS.
  now apply (targ_guard_with true _ _ _ _ (targ_bind VSome H) T s r).
Qed.
Lemma arg_ok v t : arg e sf (both e sf ok) v t ->
  forall ty, typed ty v -> exists n, forall f, (n <= f)%nat -> targ (de_ty f ty) (need v) t v.
Proof.
  induction 1 as [v0 t0 w C [RV BV] TL|w HU TL SL|name w HU TL SL|v0 t0 w HU _ RT TL|name v0 t0 w HU [RV BV] TL|l t0 HU I|name l t0 HU I|name fs fs' t0 HU P I|v0 t0 w w' w'' HU HS L L' AR IH TL|v0 t0 HU HS NO AR IH].
  - intros ty HT. destruct (BV ty HT) as (n & H). exists n. intros f LF. destruct (H f LF) as [H1 H2].
    destruct (x_unwrap_variant_newtypes e) eqn:UV.
    + destruct C as [C|C]; [discriminate|]. destruct (H2 C) as (b & H3). eapply tr_targ; [reflexivity| |]; rewrite ?UV; eassumption.
    + eapply tr_targ; [reflexivity| |]; rewrite ?UV; eassumption.
  - apply targ_intro. intros ty NR HT. inversion HT; subst; try contradiction. exists 0%nat. intros f _.
    change w with ([] ++ w). eapply tr_targ with (n' := false); [reflexivity|assumption|]. rewrite HU. cbn [de_step].
    eapply tr_bind_l with (D1 := anything); [|apply tr_ret|now intros].
    unfold de_unit. apply tr_get. intros s _ ->. eapply tr_bind_l with (D1 := anything); [apply tr_ret| |now intros]. apply tr_nt.
  - apply targ_intro. intros ty NR HT. inversion HT; subst; try contradiction. exists 0%nat. intros f _.
    cbn [de_step]. intros T s r J Hs HB He Hn Hl. rewrite HU in Hn.
    assert (Z : tr (de_unit_struct name ;;; ret (VUnitStruct name)) true false 0 [] (fun r' => r' = w ++ r) (VUnitStruct name)).
    { eapply tr_bind_l with (D1 := fun r' => r' = w ++ r); [|apply tr_ret|auto]. unfold de_unit_struct.
      eapply tr_bind_l with (D1 := fun r' => r' = w ++ r) (a := false); [| |auto].
      - destruct (str_eqb name s_RangeFull); [|apply tr_ret].
        eapply tr_D; [apply tr_lex, reads_consume_str_false|]. intros r' ->. now apply solid_not_dotdot.
      - apply tr_get. intros s0 _ ->. eapply tr_bind_l with (D1 := anything); [apply tr_ret| |now intros]. apply tr_nt. }
    eapply wp_conseq; [apply (Z T s (w ++ r)); auto| |auto]. cbn beta.
    intros v' s' (-> & R & J' & E' & _ & L'). split; [reflexivity|]. split; [now exists w|]. auto.
  - apply targ_intro. intros ty NR HT. exists 0%nat. intros f _. eapply tr_targ; [reflexivity|exact TL|]. now apply tr_range.
  - apply targ_intro. intros ty NR HT. inversion HT as [| | | | | | | | | | nm0 ty0 v1 HT0 | | | | | | | | | |]; subst; try contradiction.
    destruct (BV ty0 HT0) as (n & H). exists n. intros f LF. destruct (H f LF) as [H1 _].
    cbn [de_step need]. eapply tr_targ with (n' := false); [reflexivity|assumption|]. rewrite HU.
    unfold de_newtype. apply tr_get. intros s _ ->. rewrite orb_true_r.
    eapply tr_bind_r with (D1 := anything); [apply tr_nt| |now intros]. apply tr_guard_r. now apply tr_map.
  - apply targ_intro. intros ty NR HT. inversion HT; subst; try contradiction.
    match goal with H : Forall2 _ _ _ |- _ => rename H into F end.
    destruct (tuple_body ts l t0 [] VTuple F I l_nil) as (n & H). exists n. intros f LF.
    destruct (H f LF) as (w1 & t1 & D & EQ & L1 & HD & TR).
    cbn [app] in EQ. subst t0. cbn [de_step need]. eapply tr_targ_exact with (n' := false); [reflexivity|]. rewrite HU.
    exact (tr_de_tuple e _ true _ t1 w1 _ D TR L1 HD).
  - apply targ_intro. intros ty NR HT. inversion HT; subst; try contradiction.
    match goal with H : Forall2 _ _ _ |- _ => rename H into F end.
    destruct (tuple_body ts l t0 [] (VTupleStruct name) F I l_nil) as (n & H). exists n. intros f LF.
    destruct (H f LF) as (w1 & t1 & D & EQ & L1 & HD & TR).
    cbn [app] in EQ. subst t0. cbn [de_step need]. eapply tr_targ_exact with (n' := false); [reflexivity|]. rewrite HU.
    apply tr_get. intros s _ ->. eapply tr_bind_r with (D1 := anything); [apply tr_ret| |now intros]. apply tr_map_err.
    exact (tr_de_tuple e _ true _ t1 w1 _ D TR L1 HD).
  - apply targ_intro. intros ty NR HT. inversion HT as [| | | | | | | | | | | | | | |deny nm0 fields fs0 ND EQ F| | | | |]; subst; try contradiction.
    destruct (struct_good deny fields fs fs' t0 [] (VStruct name) (is_option tenv) ND EQ F P I l_nil) as (n & H).
    exists n. intros f LF. specialize (H f LF). cbn [app] in H. cbn [de_step need].
    eapply tr_targ_exact with (n' := false); [reflexivity|]. rewrite HU.
    refine (tr_bind_r e _ _ true true false _ _ _ _ None _ (tr_no_range name (map fst fields) true _) _ _).
    + apply tr_get. intros s _ ->. eapply tr_bind_r with (D1 := anything); [apply tr_ret| |now intros].
      eapply tr_bind_r with (D1 := solid); [apply (tr_ws e [] true _ l_nil)| |].
      * eapply tr_text; [refine (tr_struct_after_name e name _ true _ t0 [] _ (begins c_rp) H l_nil _); now intros|]. apply app_nil_r.
      * intros r HB. eapply items_solid; [|exact I|apply closer_solid with c_rp; [cbn; tauto|exact HB]].
        intros a tx EN. eapply entry_opens; [|exact EN]. intros k tk HK r0. eapply ident_opens; exact HK.
    + intros r HB. eapply entries_no_range; [exact I| |exact HB].
      intros k IN. rewrite <- EQ. eapply Permutation_in; [|exact IN]. apply Permutation_map. now symmetry.
  - apply targ_intro. intros ty NR HT. inversion HT as [| | | | | | | | | ty0 v1 HT0 | | | | | | | | | | |]; subst; try contradiction.
    destruct (IH ty0 HT0) as (n & H). exists n. intros f LF. cbn [de_step need].
    replace (s_Some ++ w ++ c_lp :: w' ++ t0 ++ c_rp :: w'') with ((s_Some ++ w ++ c_lp :: w' ++ t0 ++ [c_rp]) ++ w'') by texts.
    eapply tr_targ with (n' := false); [reflexivity|exact TL|]. apply tr_any_D. apply tr_explicit; auto. now apply (arg_solid v0).
  - apply targ_intro. intros ty NR HT. inversion HT as [| | | | | | | | | ty0 v1 HT0 | | | | | | | | | | |]; subst; try contradiction.
    destruct (IH ty0 HT0) as (n & H). exists n. intros f LF. cbn [de_step need]. apply targ_implicit; auto.
Qed.

(** ** All values *)
Lemma is_read_n m v t : (forall n : bool, exists b : bool, (n = false -> b = false) /\ tr m n b (need v) t delim v) -> is_read m v t.
Proof.
  intros H. split.
  - destruct (H false) as (b & EQ & T). now rewrite EQ in T.
  - intros _. destruct (H true) as (b & _ & T). now exists b.
Qed.
Lemma parse_bool_reads (b : bool) : reads parse_bool (if b then s_true else s_false) (starts_not xid_continue) b.
Proof.
  unfold parse_bool. destruct b.
  - eapply reads_bind_l; [apply reads_consume_ident|apply reads_ret|auto].
  - refine (reads_bind _ _ [] s_false _ (starts_not xid_continue) false false (reads_consume_ident_false _) _ _); [|reflexivity].
    eapply reads_bind_l; [apply reads_consume_ident|apply reads_ret|auto].
Qed.
Lemma bytes_lit_head b t : bytes_lit t b -> exists t', t = c_b :: t'.
Proof. intros []; cbn; eauto. Qed.
Lemma tr_bytes b t n c : bytes_lit t b -> tr de_bytes n n c t anything b.
Proof.
  intros H. unfold de_bytes. eapply tr_bind_r with (a := false) (D1 := starts_not (fun d => d =? c_lb));
    [apply tr_lex, reads_check_char_false|now apply tr_lex, reads_bytes|].
  intros r _. destruct (bytes_lit_head b t H) as (t' & ->). reflexivity.
Qed.
Lemma parens_lp n r : n = false -> parens n r = c_lp :: r ++ [c_rp].
Proof. now intros ->. Qed.

Lemma lp_solid r : solid (c_lp :: r).
Proof. apply solid_char; reflexivity || discriminate. Qed.
(** a name, layout, and what begins with a parenthesis *)
Lemma tr_named {B} (m : M B) gap name tn n n' c t D b : name_text e sf gap name tn -> begins c_lp t ->
  (forall w, layout w -> (gap = false -> w = []) -> tr m n n' c (w ++ t) D b) ->
  tr (consume_struct_name name ;;; m) n n' c (tn ++ t) D b.
Proof.
  intros HN (t' & ->) H. destruct (tr_name e sf gap name tn HN) as (t1 & w & x & -> & L & G & _ & TR).
  rewrite <- app_assoc.
  refine (tr_bind e _ _ n n n' c t1 _ ident_end D x b (TR n c) (H w L G) _).
  intros r _. rewrite <- app_assoc. now apply lp_ident_end.
Qed.
Lemma name_no_range gap name fields tn r : name_text e sf gap name tn -> no_range name fields (tn ++ c_lp :: r).
Proof.
  intros [EX|t w _ HI L G]; [apply no_range_char; cbn; tauto|]. rewrite <- app_assoc.
  eapply ident_no_range; [exact HI|now apply lp_ident_end|auto].
Qed.
Lemma ident_not_dotdot t k r : ident_lit t k -> ident_end r -> starts_with s_dotdot (t ++ r) = false.
Proof. intros H IE. apply (ident_no_range [] [] t k r H IE). discriminate. Qed.
Lemma tr_enum_id {B} variants k t w (f : str * vty -> M B) n n' c t' D b : ident_lit t k -> NoDup (map fst variants) -> In (k, w) variants ->
  tr (f (k, w)) n n' c t' D b -> (forall r, D r -> ident_end (t' ++ r)) -> (1 <= c)%nat ->
  tr (x <- guard (k <- de_identifier ;;
            match assoc k variants with
            | Some w => ret (k, w)
            | None => fail (ENoSuchEnumVariant k None)
            end) ;; f x) n n' c (t ++ t') D b.
Proof.
  intros HI ND IN H HD LC. refine (tr_bind e _ _ n n n' c t t' ident_end D (k, w) b _ H HD).
  eapply tr_le; [exact LC|]. apply tr_guard. eapply tr_bind_l; [apply tr_ident; exact HI| |auto].
  rewrite (assoc_in k w variants ND IN). apply tr_ret.
Qed.
Lemma tr_lp {B} (k : bool -> M B) n n' c t D b : tr (k true) n n' c t D b -> tr (x <- consume_char c_lp ;; k x) n n' c (c_lp :: t) D b.
Proof. intros H. apply (tr_bind e _ _ n n n' c [c_lp] t anything D true b); [apply tr_char|exact H|now intros]. Qed.
Lemma tr_enum {m : M val} name n c t D b : tr m false false c t D b -> (forall r, solid (t ++ r)) ->
  tr (modify (set_nt false) ;;; map_err (enum_error_name name) (guard_r (skip_ws ;;; m))) n false (S c) t D b.
Proof.
  intros H SL. eapply tr_bind_r with (D1 := anything); [apply tr_nt| |now intros]. apply tr_map_err, tr_guard_r.
  eapply tr_bind_r with (D1 := solid); [apply (tr_ws e [] false c l_nil)|exact H|auto].
Qed.

Theorem repr_ok v t : repr e sf v t -> ok v t.
Proof.
  intros H. revert v t H. apply (repr_ind' e sf ok).
  - intros b. apply ok_lex. intros ty NR HT. inversion HT; subst; try contradiction. exists 0%nat. intros f n' _. cbn [de_step].
    apply tr_map. eapply tr_D; [apply tr_lex, parse_bool_reads|apply delim_xid].
  - intros k z t _ KS HL. apply ok_lex. intros ty NR HT. inversion HT; subst; try contradiction. exists 0%nat. intros f n' _. cbn [de_step].
    rewrite KS. apply (tr_map e (integer (Some k)) (fun p => VInt k (snd p))  _ _ _ _ _ (k, z)).
    eapply tr_D; [apply tr_lex, reads_int; assumption|apply delim_xid].
  - intros k z t _ KS HL. apply ok_lex. intros ty NR HT. inversion HT; subst; try contradiction. exists 0%nat. intros f n' _. cbn [de_step].
    rewrite KS. apply (tr_map e (integer (Some k)) (fun p => VInt k (snd p))  _ _ _ _ _ (k, z)).
    eapply tr_D; [apply tr_lex, reads_int_suffix; assumption|apply delim_xid].
  - intros k b sfx t _ HL. apply ok_lex. intros ty NR HT. inversion HT; subst; try contradiction. exists 0%nat. intros f n' _. cbn [de_step].
    apply (tr_map e (float (Some k)) (fun p => VFloat k (snd p))  _ _ _ _ _ (k, b)).
    eapply tr_D; [apply tr_lex, (reads_float k sfx); assumption|apply delim_float].
  - intros c t HL. apply ok_lex. intros ty NR HT. inversion HT; subst; try contradiction. exists 0%nat. intros f n' _. cbn [de_step].
    apply tr_map, tr_any_D, tr_lex, reads_char. assumption.
  - intros c t HL. apply ok_lex. intros ty NR HT. inversion HT; subst; try contradiction. exists 0%nat. intros f n' _. cbn [de_step].
    apply tr_map, tr_any_D, tr_lex, reads_string. assumption.
  - intros c t HL. apply ok_lex. intros ty NR HT. inversion HT; subst; try contradiction. exists 0%nat. intros f n' _. cbn [de_step].
    apply tr_map, tr_any_D, tr_bytes. assumption.
  - (* unit *)
    apply ok_intro. intros ty NR HT. inversion HT; subst; try contradiction. exists 0%nat. intros f _. split; [|discriminate].
    cbn [de_step]. eapply tr_bind_l with (D1 := anything); [|apply tr_ret|now intros].
    unfold de_unit. apply tr_get. intros s _ ->. eapply tr_bind_l with (D1 := anything); [apply tr_lex, reads_consume_str|apply tr_nt|now intros].
  - (* unit struct *)
    intros name EX. apply ok_intro. intros ty NR HT. inversion HT; subst; try contradiction. exists 0%nat. intros f _. split; [|discriminate].
    cbn [de_step]. eapply tr_bind_l with (D1 := anything); [|apply tr_ret|now intros]. unfold de_unit_struct.
    eapply tr_bind_r with (D1 := fun r' => starts_with s_dotdot r' = false) (a := false); [| |reflexivity].
    { destruct (str_eqb name s_RangeFull); [apply tr_lex, reads_consume_str_false|apply tr_ret]. }
    apply tr_get. intros s _ ->. destruct (tr_name e sf true name [] (nm_none e sf true name EX)) as (t1 & w & x & EQ & _ & _ & BX & TR).
    symmetry in EQ. apply app_eq_nil in EQ as [-> ->]. cbn in BX. subst x.
    eapply tr_bind_r with (D1 := ident_end) (a := false); [apply TR| |intros r _; exact (lp_ident_end [] _ l_nil)].
    unfold de_unit. apply tr_get. intros s0 _ ->. eapply tr_bind_l with (D1 := anything); [apply tr_lex, reads_consume_str|apply tr_nt|now intros].
  - (* named unit struct *)
    intros name t KN HI. apply ok_intro. intros ty NR HT. inversion HT; subst; try contradiction. exists 0%nat. intros f _. split; [|discriminate].
    cbn [de_step]. eapply tr_bind_l with (D1 := ident_end); [|apply tr_ret|apply delim_ident_end]. unfold de_unit_struct.
    eapply tr_bind_r with (D1 := fun r' => starts_with s_dotdot r' = false) (a := false);
      [| |intros r IE; eapply ident_not_dotdot; eassumption].
    { destruct (str_eqb name s_RangeFull); [apply tr_lex, reads_consume_str_false|apply tr_ret]. }
    apply tr_get. intros s _ ->. destruct (tr_name e sf false name (t ++ []) (nm_some e sf false name t [] KN HI l_nil (fun _ => eq_refl))) as (t1 & w & x & EQ & L & G & BX & TR).
    rewrite app_nil_r in *. assert (x = true) as -> by (destruct HI; exact BX).
    rewrite G, app_nil_r in EQ by reflexivity. subst t1.
    eapply tr_bind_l with (D1 := ident_end) (a := true); [apply TR|apply tr_nt|auto].
  - (* range *)
    intros v t _ RT. apply ok_lex. intros ty NR HT. exists 0%nat. intros f n' _. now apply tr_range.
  - (* None *)
    apply ok_lex. intros ty NR HT. inversion HT; subst; try contradiction. exists 0%nat. intros f n' _. cbn [de_step]. unfold de_option.
    eapply tr_bind_l with (a := true); [apply tr_lex, reads_consume_ident|apply tr_ret|apply delim_xid].
  - (* Some *)
    intros v t w w' L L' AR. apply ok_intro. intros ty NR HT. inversion HT as [| | | | | | | | | ty0 v0 HT0 | | | | | | | | | | |]; subst; try contradiction.
    destruct (arg_ok v t AR ty0 HT0) as (n & H). exists n. intros f LF. apply is_read_n. intros n'. exists false. split; [reflexivity|].
    cbn [de_step need]. apply tr_any_D, tr_explicit; auto. now apply (arg_solid v).
  - (* implicit Some *)
    intros v t IS NO RV OV. apply ok_intro. intros ty NR HT. inversion HT as [| | | | | | | | | ty0 v0 HT0 | | | | | | | | | | |]; subst; try contradiction.
    destruct (OV ty0 HT0) as (n & H). exists n. intros f LF. destruct (H f LF) as [H1 _]. split.
    + cbn [de_step need]. now apply tr_implicit.
    + cbn. congruence.
  - (* newtype *)
    intros name v tn t w w' UN HN L RV OV TL. apply ok_intro. intros ty NR HT. inversion HT as [| | | | | | | | | | nm0 ty0 v0 HT0 | | | | | | | | | |]; subst; try contradiction.
    destruct (OV ty0 HT0) as (n & H). exists n. intros f LF. destruct (H f LF) as [H1 _]. split; [|discriminate].
    cbn [de_step need]. unfold de_newtype. apply tr_get. intros s -> ->. rewrite UN. cbn [orb]. cbn iota.
    eapply tr_named; [exact HN|now eexists|]. intros w0 L0 _.
    refine (tr_bind e _ _ false false false _ w0 _ solid _ tt _ (tr_ws e w0 false _ L0) _ _); [|intros; apply lp_solid].
    apply tr_lp. cbn iota.
    refine (tr_bind e _ _ false false false _ w _ solid _ tt _ (tr_ws e w false _ L) _ _); [|intros r _; rewrite <- app_assoc; apply opens_solid; exact (repr_opens e sf v t RV _)].
    refine (tr_bind e _ _ false false false _ t _ delim _ (VNewtype name v) _ _ _ _).
    + apply tr_guard. now apply tr_map.
    + destruct (tr_tail w' false (S (need v)) TL) as (b & TC).
      refine (tr_bind e _ _ false false false _ w' [c_rp] (begins c_rp) delim b _ TC _ _); [|intros r' _; now exists r'].
      eapply tr_bind_l with (D1 := anything); [apply tr_char|apply tr_ret|now intros].
    + intros r _. rewrite <- app_assoc. apply tail_delim; [assumption|now exists r].
  - (* unwrapped newtype *)
    intros name v t UN RV OV. apply ok_intro. intros ty NR HT. inversion HT as [| | | | | | | | | | nm0 ty0 v0 HT0 | | | | | | | | | |]; subst; try contradiction.
    destruct (OV ty0 HT0) as (n & H). exists n. intros f LF. destruct (H f LF) as [H1 _]. split; [|discriminate].
    cbn [de_step need]. unfold de_newtype. apply tr_get. intros s -> ->. rewrite UN. cbn [orb]. cbn iota.
    eapply tr_bind_r with (D1 := anything); [apply tr_nt| |now intros]. apply tr_guard_r. now apply tr_map.
  - (* sequence *)
    intros l t w L I. apply ok_intro. intros ty NR HT. inversion HT as [| | | | | | | | | | | ty0 l0 F | | | | | | | | |]; subst; try contradiction.
    destruct (seq_good ty0 (max_list (map need l)) l t I F) as (n & H); [intros; now apply max_list_map|].
    exists n. intros f LF. apply is_read_n. intros n'. exists false. split; [reflexivity|]. cbn [de_step need].
    eapply tr_text; [apply tr_any_D, tr_de_seq|].
    + apply (tr_map e _ VSeq). apply tr_seq_all; [cbn; tauto|apply H; exact LF|exact L].
    + texts.
  - (* tuple *)
    intros l t w L I. apply ok_intro. intros ty NR HT. inversion HT as [| | | | | | | | | | | | ts l0 F | | | | | | | |]; subst; try contradiction.
    destruct (tuple_body ts l t w VTuple F I L) as (n & H). exists n. intros f LF. split; [|discriminate].
    destruct (H f LF) as (w1 & t1 & D & EQ & L1 & HD & TR). cbn [de_step need].
    eapply tr_text; [eapply tr_D; [exact (tr_de_tuple e _ false _ t1 w1 _ D TR L1 HD)|now intros]|].
    unfold parens. rewrite <- EQ. texts.
  - (* tuple struct *)
    intros name l tn t w HN L I. apply ok_intro. intros ty NR HT. inversion HT as [| | | | | | | | | | | | | nm0 ts l0 F | | | | | | |]; subst; try contradiction.
    destruct (tuple_body ts l t w (VTupleStruct name) F I L) as (n & H). exists n. intros f LF. split; [|discriminate].
    destruct (H f LF) as (w1 & t1 & D & EQ & L1 & HD & TR). cbn [de_step need].
    apply tr_get. intros s _ ->. cbn iota. eapply tr_named; [exact HN|now eexists|]. intros w0 L0 G0. rewrite G0 by reflexivity. cbn [app].
    apply tr_map_err.
    eapply tr_text; [eapply tr_D; [exact (tr_de_tuple e _ false _ t1 w1 _ D TR L1 HD)|now intros]|].
    unfold parens. rewrite <- EQ. texts.
  - (* map *)
    intros es t w L I. apply ok_intro. intros ty NR HT. inversion HT as [| | | | | | | | | | | | | | kt vt l0 F | | | | | |]; subst; try contradiction.
    destruct (map_good kt vt (max_list (map (fun kv => Nat.max (need (fst kv)) (need (snd kv))) es)) es t I F) as (n & H).
    { intros kv IN. assert (M := max_list_map (fun kv => Nat.max (need (fst kv)) (need (snd kv))) es kv IN). cbn beta in M. lia. }
    exists n. intros f LF. apply is_read_n. intros n'. exists false. split; [reflexivity|]. cbn [de_step need].
    eapply tr_text; [apply tr_any_D, tr_de_map|].
    + apply (tr_map e _ VMap). apply tr_map_all; [cbn; tauto|apply H; exact LF|exact L].
    + texts.
  - (* struct *)
    intros name fs fs' tn t w HN L P I. apply ok_intro. intros ty NR HT.
    inversion HT as [| | | | | | | | | | | | | | |deny nm0 fields fs0 ND EQ F| | | | |]; subst; try contradiction.
    destruct (struct_good deny fields fs fs' t w (VStruct name) (is_option tenv) ND EQ F P I L) as (n & H).
    exists n. intros f LF. specialize (H f LF). split; [|discriminate]. cbn [de_step need].
    refine (tr_bind_r e _ _ false false false _ _ _ _ None _ (tr_no_range name (map fst fields) false _) _ _).
    + apply tr_get. intros s _ ->. cbn iota. eapply tr_named; [exact HN|now eexists|]. intros w0 L0 _.
      refine (tr_bind e _ _ false false false _ w0 _ solid _ tt _ (tr_ws e w0 false _ L0) _ _); [|intros; apply lp_solid].
      eapply tr_text; [eapply tr_D; [refine (tr_struct_after_name e name _ false _ (w ++ t) [] _ (begins c_rp) H l_nil _); auto|now intros]|].
      unfold parens. texts.
    + intros r _. rewrite <- app_assoc. eapply name_no_range. exact HN.
  - (* unit variant *)
    intros ename k t _ HI. apply ok_intro. intros ty NR HT. inversion HT as [| | | | | | | | | | | | | | | |nm0 vs k0 ND IN| | | |]; subst; try contradiction.
    exists 0%nat. intros f _. apply is_read_n. intros n'. exists false. split; [reflexivity|]. cbn [de_step need].
    apply tr_enum; [|intros r; eapply opens_solid, ident_opens; exact HI].
    eapply tr_text; [eapply (tr_enum_id vs k t WUnit _ false false 1 []); [exact HI|exact ND|exact IN|apply tr_ret|apply delim_ident_end|lia]|apply app_nil_r].
  - (* newtype variant *)
    intros ename k v tk t w w' _ HI L L' AR. apply ok_intro. intros ty NR HT. inversion HT as [| | | | | | | | | | | | | | | | |nm0 vs k0 ty0 v0 ND IN HT0| | |]; subst; try contradiction.
    destruct (arg_ok v t AR ty0 HT0) as (n & H). exists n. intros f LF. apply is_read_n. intros n'. exists false. split; [reflexivity|].
    cbn [de_step need]. apply tr_enum; [|intros r; rewrite <- app_assoc; eapply opens_solid, ident_opens; exact HI].
    eapply (tr_enum_id vs k tk (WNew ty0)); [exact HI|exact ND|exact IN| | |lia].
    + cbn iota. apply tr_get. intros s _ _.
      refine (tr_bind e _ _ false false false _ w _ solid _ tt _ (tr_ws e w false _ L) _ _); [|intros; apply lp_solid].
      apply tr_lp. cbn iota. apply tr_any_D.
      apply (tr_arg_close _ _ _ _ w' false (VNewVariant ename k)); [apply targ_map_err, H; exact LF|assumption|now apply (arg_solid v)].
    + intros r _. rewrite <- app_assoc. now apply lp_ident_end.
  - (* tuple variant *)
    intros ename k l tk t w w' _ HI L L' I. apply ok_intro. intros ty NR HT. inversion HT as [| | | | | | | | | | | | | | | | | |nm0 vs k0 ts l0 ND IN F| |]; subst; try contradiction.
    destruct (tuple_body ts l t w' (VTupVariant ename k) F I L') as (n & H). exists n. intros f LF. apply is_read_n. intros n'. exists false. split; [reflexivity|].
    destruct (H f LF) as (w1 & t1 & D & EQ & L1 & HD & TR).
    cbn [de_step need]. apply tr_enum; [|intros r; rewrite <- app_assoc; eapply opens_solid, ident_opens; exact HI].
    eapply (tr_enum_id vs k tk (WTup ts)); [exact HI|exact ND|exact IN| | |lia].
    + cbn iota.
      refine (tr_bind e _ _ false false false _ w _ solid _ tt _ (tr_ws e w false _ L) _ _); [|intros; apply lp_solid].
      eapply tr_text; [eapply tr_D; [exact (tr_de_tuple e _ false _ t1 w1 _ D TR L1 HD)|now intros]|].
      unfold parens. rewrite <- EQ. texts.
    + intros r _. rewrite <- app_assoc. now apply lp_ident_end.
  - (* struct variant *)
    intros ename k fs fs' tk t w w' _ HI L L' P I. apply ok_intro. intros ty NR HT. inversion HT as [| | | | | | | | | | | | | | | | | | |nm0 vs k0 deny fields fs0 ND IN ND' EQ F|]; subst; try contradiction.
    destruct (struct_good deny fields fs fs' t w' (VStructVariant ename k) (is_option tenv) ND' EQ F P I L') as (n & H).
    exists n. intros f LF. specialize (H f LF). apply is_read_n. intros n'. exists false. split; [reflexivity|].
    cbn [de_step need]. apply tr_enum; [|intros r; rewrite <- app_assoc; eapply opens_solid, ident_opens; exact HI].
    eapply (tr_enum_id vs k tk (WStruct deny fields)); [exact HI|exact ND|exact IN| | |lia].
    + cbn iota. apply tr_get. intros s _ _.
      refine (tr_bind e _ _ false false false _ w _ solid _ tt _ (tr_ws e w false _ L) _ _); [|intros; apply lp_solid].
      apply tr_map_err.
      eapply tr_text; [eapply tr_D; [refine (tr_struct_after_name e [] _ false _ (w' ++ t) [] _ (begins c_rp) H l_nil _); auto|now intros]|].
      unfold parens. texts.
    + intros r _. rewrite <- app_assoc. now apply lp_ident_end.
Qed.
End Exts.
End WithEnv.

(** ** Documents *)
Lemma typed_document {E : Env} {X : XidOk E} {FO : FloatOk E} sf tenv fok o ty v w0 at0 e t w1 :
  layout w0 -> attrs_text at0 e -> repr (exts_or e (o_exts o)) sf v t -> final_layout w1 -> typed tenv fok ty v ->
  room (need v) (o_limit o) ->
  exists n, forall f, (n <= f)%nat -> options_from_str o (de_ty tenv f ty) (w0 ++ at0 ++ t ++ w1) = RValue v.
Proof.
  intros L HA RV FL HT RM. destruct (repr_ok (exts_or e (o_exts o)) sf tenv fok v t RV ty HT) as (n & H). exists n. intros f LF.
  eapply document_reads; [exact L|exact HA|now apply repr_start with (exts_or e (o_exts o)) sf v|exact FL|].
  intros T s J Hs He Hn Hl _. destruct (H f LF) as [TR _].
  eapply wp_conseq; [apply (TR T s w1); auto; [now apply final_delim|now rewrite Hl]| |auto]. cbn beta. tauto.
Qed.
