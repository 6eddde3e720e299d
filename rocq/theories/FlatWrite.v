(** What is written for a struct with flattened fields (C59). *)
From Coq Require Import String Ascii NArith ZArith Lia Bool List Permutation.
From Coq Require Import ZifyBool ZifyNat ZifyN.
From Verif Require Import Base Facts Value Data Parse De Span Ser Wp EnvOk Layout Lit Attr ShowFacts LexSafe LexWs LexRead DocSafe DocRead SerLex LexDoc Typing ValueFacts Repr ReprFacts TypedRead TypedMain VRepr AnyRead AnyMain Unwrap IntoRust Content ContentRead RangeSpec SerNum SerWp SerRepr SerOk ThmTyped ThmUnwrap ThmThrough ThmInto Buffered ContentWrite Tagged Owned TaggedRead TaggedWrite Flatten FlatRead.
Import ListNotations.
Open Scope N_scope.
Open Scope list_scope.
Open Scope sm_scope.

(** ** Values *)
(** the values of the fields; floats among the fields of the struct itself are
    those of [fok1], the others those of [fok2] *)
Inductive flat_val {E : Env} (tenv : nat -> ty) (fok1 fok2 : fk -> N -> Prop) : list (str * fdecl) -> list (str * val) -> Prop :=
  | fl_nil : flat_val tenv fok1 fok2 [] []
  | fl_own k t v ds fs : typed tenv fok1 t v -> flat_val tenv fok1 fok2 ds fs -> flat_val tenv fok1 fok2 ((k, FOwn t) :: ds) ((k, v) :: fs)
  | fl_struct k name fields l ds fs : NoDup (map fst fields) -> map fst l = map fst fields ->
      Forall (fun fv => exists t, In (fst fv, t) fields /\ typed tenv fok2 t (snd fv)) l ->
      flat_val tenv fok1 fok2 ds fs -> flat_val tenv fok1 fok2 ((k, FStruct name fields) :: ds) ((k, VStruct name l) :: fs)
  | fl_map k t es ds fs : Forall (fun kv => typed tenv fok2 TStr (fst kv) /\ typed tenv fok2 t (snd kv)) es ->
      flat_val tenv fok1 fok2 ds fs -> flat_val tenv fok1 fok2 ((k, FMap t) :: ds) ((k, VMap es) :: fs).
(** no flattened field comes after a flattened map *)
Fixpoint map_last (ds : list (str * fdecl)) : Prop :=
  match ds with
  | [] => True
  | (_, FMap _) :: ds' => Forall (fun d => exists t, snd d = FOwn t) ds'
  | _ :: ds' => map_last ds'
  end.

(** ** The entries, those of the struct itself on the left *)
Definition part (d : fdecl) (k : str) (v : val) : list ((str * val) + (str * val)) :=
  match d, v with
  | FOwn _, _ => [inl (k, v)]
  | FStruct _ _, VStruct _ fs => map inr fs
  | FMap _, VMap es => flat_map (fun kv => match fst kv with VStr s => [inr (s, snd kv)] | _ => [] end) es
  | _, _ => []
  end.
Fixpoint all_parts (ds : list (str * fdecl)) (fs : list (str * val)) : list ((str * val) + (str * val)) :=
  match ds, fs with
  | (_, d) :: ds', (k, v) :: fs' => part d k v ++ all_parts ds' fs'
  | _, _ => []
  end.
Definition untag (p : (str * val) + (str * val)) : val * val :=
  match p with inl (k, v) | inr (k, v) => (VStr k, v) end.
Fixpoint flats (ds : list (str * fdecl)) (fs : list (str * val)) : list val :=
  match ds, fs with
  | (_, FOwn _) :: ds', _ :: fs' => flats ds' fs'
  | _ :: ds', (_, v) :: fs' => v :: flats ds' fs'
  | _, _ => []
  end.
Lemma lefts_app {A B} (l l' : list (A + B)) : lefts (l ++ l') = lefts l ++ lefts l'.
Proof. apply flat_map_app. Qed.
Lemma rights_app {A B} (l l' : list (A + B)) : rights (l ++ l') = rights l ++ rights l'.
Proof. apply flat_map_app. Qed.
Lemma lefts_inr {A B} (l : list B) : lefts (map inr l : list (A + B)) = [].
Proof. induction l; auto. Qed.
Lemma rights_inr {A B} (l : list B) : rights (map inr l : list (A + B)) = l.
Proof. induction l as [|a l IH]; [reflexivity|]. cbn. f_equal. exact IH. Qed.

Section Values.
Context {E : Env}.
Variables (tenv : nat -> ty) (fok1 fok2 : fk -> N -> Prop).
Local Notation flat_val := (flat_val tenv fok1 fok2).
(** the entries of a flattened map *)
Lemma str_keys t es : Forall (fun kv => typed tenv fok2 TStr (fst kv) /\ typed tenv fok2 t (snd kv)) es -> exists l,
  part (FMap t) [] (VMap es) = map inr l /\ es = map (fun p => (VStr (fst p), snd p)) l.
Proof.
  cbn [part]. induction 1 as [|[k v] es [H1 H2] _ (l & IH1 & IH2)]; [exists []; auto|]. cbn [fst snd] in *. inversion H1; subst; [].
  exists ((s, v) :: l). cbn. now rewrite IH1.
Qed.
Lemma map_part t k es : part (FMap t) k (VMap es) = part (FMap t) [] (VMap es).
Proof. reflexivity. Qed.
Lemma flat_entries_parts ds fs : flat_val ds fs -> flat_entries ds fs = Some (map untag (all_parts ds fs)).
Proof.
  induction 1 as [|k t v ds fs HT _ IH|k name fields l ds fs ND EQ FT _ IH|k t es ds fs FT _ IH]; [reflexivity|..]; cbn [flat_entries all_parts flat_part]; rewrite IH, map_app.
  - reflexivity.
  - cbn [part]. rewrite map_map. do 2 f_equal. apply map_ext. now intros [].
  - destruct (str_keys t es FT) as (l & Q1 & Q2). rewrite map_part, Q1, map_map. do 2 f_equal. rewrite Q2. apply map_ext. now intros [].
Qed.
Lemma own_parts ds fs : flat_val ds fs -> map fst (lefts (all_parts ds fs)) = map fst (own_types ds) /\
  Forall2 (fun ft fv => fst fv = fst ft /\ typed tenv fok1 (snd ft) (snd fv)) (own_types ds) (lefts (all_parts ds fs)) /\ assemble ds (lefts (all_parts ds fs)) (flats ds fs) = fs.
Proof.
  induction 1 as [|k t v ds fs HT _ (IH1 & IH2 & IH3)|k name fields l ds fs ND EQ FT _ (IH1 & IH2 & IH3)|k t es ds fs FT _ (IH1 & IH2 & IH3)]; cbn [all_parts].
  - repeat split. constructor.
  - cbn [part app lefts flat_map own_types map fst snd]. fold (lefts (all_parts ds fs)). fold (own_types ds). rewrite IH1. split; [reflexivity|]. split; [now constructor|].
    cbn [assemble flats]. now rewrite IH3.
  - rewrite lefts_app. cbn [part]. rewrite lefts_inr. cbn [app]. split; [exact IH1|]. split; [exact IH2|]. cbn [assemble flats]. now rewrite IH3.
  - destruct (str_keys t es FT) as (l & Q1 & Q2). rewrite lefts_app, map_part, Q1, lefts_inr. cbn [app]. split; [exact IH1|]. split; [exact IH2|]. cbn [assemble flats]. now rewrite IH3.
Qed.
(** every collected entry is taken by the field it comes from *)
Lemma rest_own ds fs : Forall (fun d => exists t, snd d = FOwn t) ds -> flat_val ds fs -> rights (all_parts ds fs) = [] /\ flats ds fs = [] /\ forall l, parts tenv fok2 ds l [] l.
Proof.
  intros F H. induction H as [|k t v ds fs HT _ IH|k name fields l ds fs ND EQ FT _ IH|k t es ds fs FT _ IH]; inversion F as [|? ? [t0 Q] F']; subst; try discriminate Q.
  - repeat split. constructor.
  - destruct (IH F') as (H1 & H2 & H3). cbn [all_parts part app rights flat_map]. repeat split; auto. intros l. now constructor.
Qed.
Lemma filter_all {A} (p : A -> bool) l : (forall a, In a l -> p a = true) -> filter p l = l.
Proof. induction l as [|a l IH]; intros H; [reflexivity|]. cbn. rewrite H by now left. f_equal. apply IH. intros; apply H. now right. Qed.
Lemma filter_none {A} (p : A -> bool) l : (forall a, In a l -> p a = false) -> filter p l = [].
Proof. induction l as [|a l IH]; intros H; [reflexivity|]. cbn. rewrite H by now left. apply IH. intros; apply H. now right. Qed.
Definition holds (p : str * val) (kx : str * value) : Prop := fst kx = fst p /\ buffers (snd p) (snd kx).
Lemma holds_keys l c : Forall2 holds l c -> map fst c = map fst l.
Proof. induction 1 as [|p kx l c [H _] _ IH]; [reflexivity|]. cbn. now rewrite H, IH. Qed.
Lemma named_in_iff fields p : named_in fields p = true <-> In (fst p) (map fst fields).
Proof.
  unfold named_in. rewrite existsb_exists, in_map_iff. split.
  - intros (f & IN & Q). apply str_eqb_eq in Q. eauto.
  - intros (f & Q & IN). exists f. split; [exact IN|]. rewrite Q. apply str_eqb_refl.
Qed.
Lemma parts_of ds fs : flat_val ds fs -> map_last ds -> forall c, Forall2 holds (rights (all_parts ds fs)) c -> NoDup (map fst (rights (all_parts ds fs))) ->
  exists left, parts tenv fok2 ds c (flats ds fs) left /\ ((forall k t, ~ In (k, FMap t) ds) -> left = []).
Proof.
  induction 1 as [|k t v ds fs HT FV IH|k name fields l ds fs ND EQ FT FV IH|k t es ds fs FT FV IH]; intros ML c HC NDK; cbn [all_parts] in *.
  - cbn in HC. inversion HC; subst. exists []. split; [constructor|auto].
  - cbn [part app rights flat_map] in HC, NDK. destruct (IH ML c HC NDK) as (left & P & NM). exists left. split; [now constructor|].
    intros NF. apply NM. intros k' t' IN. apply (NF k' t'). now right.
  - rewrite rights_app in HC, NDK. cbn [part] in HC, NDK. rewrite rights_inr in HC, NDK. apply Forall2_app_inv_l in HC as (c1 & c2 & H1 & H2 & ->).
    rewrite map_app in NDK. assert (D : forall k, In k (map fst l) -> ~ In k (map fst (rights (all_parts ds fs)))).
    { clear -NDK. induction (map fst l) as [|a m IH]; [intros ? []|]. cbn in NDK. inversion NDK as [|? ? NI ND]; subst. intros k [<-|IN]; [|auto].
      intros IN. apply NI, in_or_app. now right. }
    assert (NDK2 : NoDup (map fst (rights (all_parts ds fs)))) by (clear -NDK; induction (map fst l) as [|a m IH]; [exact NDK|]; inversion NDK; auto).
    destruct (IH ML c2 H2 NDK2) as (left & P & NM). exists left.
    assert (N1 : forall p, In p c1 -> named_in fields p = true).
    { intros p IN. apply named_in_iff. rewrite <- EQ, <- (holds_keys _ _ H1). now apply in_map. }
    assert (N2 : forall p, In p c2 -> named_in fields p = false).
    { intros p IN. destruct (named_in fields p) eqn:Q; [|reflexivity]. exfalso. apply named_in_iff in Q. rewrite <- EQ in Q. apply (D _ Q).
      rewrite <- (holds_keys _ _ H2). now apply in_map. }
    split.
    + cbn [flats]. apply pt_struct; auto.
      * rewrite filter_app, (filter_all _ c1), (filter_none _ c2), app_nil_r by auto. exact H1.
      * rewrite filter_app, (filter_none _ c1), (filter_all _ c2) by (intros p IN; rewrite ?(N1 p IN), ?(N2 p IN); reflexivity). exact P.
    + intros NF. apply NM. intros k' t' IN. apply (NF k' t'). now right.
  - destruct (str_keys t es FT) as (l & Q1 & Q2). cbn [map_last] in ML. destruct (rest_own ds fs ML FV) as (R1 & R2 & R3).
    rewrite rights_app, map_part, Q1, rights_inr, R1, app_nil_r in HC.
    exists c. split; [|intros NF; exfalso; apply (NF k t); now left]. cbn [flats]. rewrite R2. apply pt_map; [|eapply Forall_impl; [|exact FT]; cbn; tauto|apply R3].
    rewrite Q2. clear -HC. induction HC as [|p kx l c [H1 H2] _ IH]; cbn [map]; constructor; [|exact IH]. cbn [fst snd]. now rewrite H1.
Qed.
End Values.

(** ** Texts *)
Section Write.
Context {E : Env} {X : XidOk E} {FO : FloatOk E}.
Variables (o : opts) (cfg : option pconf).
Hypothesis VC : valid_config cfg.
Local Notation e := (extensions o cfg).
Local Notation u := (x_unwrap_variant_newtypes (extensions o cfg)).
Local Notation EL := (ContentWrite.EL o cfg).

Definition FE (p : (str * val) + (str * val)) (t : str) : Prop :=
  exists tk w tv, t = tk ++ c_colon :: w ++ tv /\ layout w /\
    match p with
    | inl (k, v) => string_lit tk k /\ repr e (sf cfg) v tv
    | inr (k, v) => string_lit tk k /\ EL v tv
    end.
Definition writable (p : (str * val) + (str * val)) : Prop :=
  match p with
  | inl (k, v) => wf_str k /\ writes o cfg (SerRepr.elem o cfg) v
  | inr (k, v) => wf_str k /\ writes o cfg EL v
  end.
Lemma em_flat_open i b d : em (flat_open cfg) i b d
    (fun _ t i2 b2 d2 => (exists w, layout w /\ t = c_lc :: w) /\ i2 = wider cfg (negb (compact_maps cfg)) i /\ b2 = false /\ d2 = 0%nat).
Proof.
  eapply em_mod_bind with (i' := i) (b' := false) (d' := 0%nat); [auto|intros s' H1 H2 H3; cbn; auto|].
  apply em_write_bind. destruct (negb (compact_maps cfg)) eqn:Q.
  - eapply em_conseq; [apply lays_start; exact VC|]. cbn beta. intros _ w i2 b2 d2 (L & -> & -> & ->).
    split; [exists w; auto|]. unfold wider. destruct cfg; auto.
  - apply em_ret. split; [exists []; split; [constructor|reflexivity]|]. unfold wider. destruct cfg; auto.
Qed.
Lemma em_flat (l : list ((str * val) + (str * val))) i b d {Q : unit -> str -> nat -> bool -> nat -> Prop} : (forall p, In p l -> writable p) ->
  (forall w ti, layout w -> neat FE l ti -> Q tt (c_lc :: w ++ ti ++ [c_rc]) i false 0%nat) ->
  em (ser_flat o cfg (map untag l)) i b d Q.
Proof.
  intros H HQ. unfold ser_flat. eapply em_bind; [apply em_flat_open|]. cbn beta.
  intros _ t i2 b2 d2 ((w & L & ->) & -> & -> & ->).
  eapply em_ext with (m' := f <~ loop (fun c p => map_entry cfg c (ser o cfg (fst (untag p))) (ser o cfg (snd (untag p)))) l true ;; map_close cfg f).
  { intros s. apply sbind_ext; [|auto]. clear. generalize true. induction l as [|p l IH]; intros c s; [reflexivity|].
    cbn [map flat_write loop fst snd]. destruct (untag p) as [k v]. cbn [fst snd]. apply sbind_ext; auto. }
  apply (em_neat_block cfg VC (fun c p => map_entry cfg c (ser o cfg (fst (untag p))) (ser o cfg (snd (untag p)))) (fun b => b) FE i l true wide_map (negb (compact_maps cfg))
    (fun _ => write [c_rc] ;~ drop_compound)); [|reflexivity|].
  - intros p IN first. unfold map_entry.
    assert (HW : exists k v, untag p = (VStr k, v) /\ wf_str k /\ exists R, writes o cfg R v /\ forall tk w tv, string_lit tk k -> layout w -> R v tv -> FE p (tk ++ c_colon :: w ++ tv)).
    { specialize (H p IN). destruct p as [[k v]|[k v]]; destruct H as [H1 H2]; exists k, v; (split; [reflexivity|]); (split; [exact H1|]); eexists; (split; [exact H2|]);
      intros tk w0 tv SL LW RV; exists tk, w0, tv; repeat split; auto. destruct RV as [RV _]. exact RV. }
    destruct HW as (k & v & -> & WK & R & HV & HFE). cbn [fst snd].
    eapply puts_bind; [apply puts_sep; exact VC|]. intros t1 (w1 & L1 & ->).
    eapply puts_bind; [apply puts_indent'; exact VC|]. intros w2 L2.
    eapply em_bind; [apply em_guard, (TaggedWrite.writes_str o cfg k WK)|]. cbn beta. intros [] tk i2 b2 d2 (HE & -> & -> & ->).
    apply em_write_bind. eapply puts_bind; [apply puts_pretty_sep; exact VC|]. intros w3 L3.
    eapply em_bind; [apply em_guard, HV|]. cbn beta. intros [] tv i2 b2 d2 (HE' & -> & -> & ->).
    apply em_ret. split; [auto|]. exists (w1 ++ w2), (tk ++ c_colon :: w3 ++ tv). split; [now apply layout_app|].
    split; [destruct HE as [_ HE]; apply HFE; auto|]. rewrite app_nil_r, <- !app_assoc. reflexivity.
  - intros w' ti c' L' IT. apply em_write_bind. eapply em_conseq; [apply em_drop|]. cbn beta. intros [] t i2 b2 d2 (-> & -> & -> & ->).
    match goal with |- Q tt ?t _ _ _ => replace t with (c_lc :: (w ++ w') ++ ti ++ [c_rc]) by (unfold str, char; cbn [app]; rewrite <- !app_assoc; reflexivity) end.
    apply HQ; [now apply layout_app|exact IT].
Qed.
(** the text is one of those that are read *)
Lemma flat_items l t c : neat FE l t -> (forall p, In p l -> (need (snd (untag p)) <= c)%nat) -> exists l',
  items (flat_item e (sf cfg) c) l' t /\ lefts l' = lefts l /\ Forall2 holds (rights l) (rights l').
Proof.
  intros H NE. apply neat_items in H.
  assert (ONE : forall p t, FE p t -> (need (snd (untag p)) <= c)%nat -> exists p', flat_item e (sf cfg) c p' t /\ lefts [p'] = lefts [p] /\ Forall2 holds (rights [p]) (rights [p'])).
  { intros p t0 (tk & w & tv & -> & L & HP) LE. destruct p as [[k v]|[k v]]; destruct HP as [SL HV]; cbn [untag snd] in LE.
    - exists (inl (k, v)). split; [|split; [reflexivity|constructor]]. apply (fi_own e (sf cfg) c k tk v tv [] w); auto. constructor.
    - destruct HV as (x & B & U). exists (inr (k, x)). split; [apply (fi_other e (sf cfg) c k tk x tv [] w); auto; constructor|]. split; [reflexivity|]. repeat constructor. exact B. }
  induction H as [|p t w HP LW|p t w w' l ts HP LW LW' _ IH].
  - exists []. repeat split; constructor.
  - destruct (ONE p t HP) as (p' & H1 & H2 & H3); [apply NE; now left|]. exists [p']. split; [now apply it_last|auto].
  - destruct (ONE p t HP) as (p' & H1 & H2 & H3); [apply NE; now left|]. destruct IH as (l' & I1 & I2 & I3); [intros; apply NE; now right|].
    exists (p' :: l'). split; [now apply it_cons|]. change (p' :: l') with ([p'] ++ l'). change (p :: l) with ([p] ++ l). rewrite !lefts_app, !rights_app, H2, I2.
    split; [reflexivity|]. now apply Forall2_app.
Qed.
Lemma em_flat_string es text (P : str -> Prop) : em (ser_flat o cfg es) 0 false 0 (fun _ t _ _ _ => P t) -> flat_to_string o cfg es = inl text ->
  exists a y t, text = a ++ t /\ attrs_text a y /\ exts_or y (o_exts o) = e /\ P t.
Proof.
  intros S TS. destruct (emits_new o cfg VC) as (a & y & EA & HA & EX).
  unfold flat_to_string in TS. unfold sbind at 1 in TS. rewrite EA in TS by reflexivity.
  specialize (S (sset_out (w_out (ser_init o cfg None) ++ a) (ser_init o cfg None)) eq_refl eq_refl eq_refl eq_refl).
  destruct (ser_flat o cfg es _) as [un s'| |]; [|discriminate|contradiction]. destruct S as (t & OUT & _ & H).
  injection TS as <-. exists a, y, t. rewrite OUT. auto.
Qed.
End Write.
