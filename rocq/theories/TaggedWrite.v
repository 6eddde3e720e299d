(** What the serializer writes for internally tagged enums is one of
    [tagged_text], for a buffer that holds the fields (C55). *)
From Coq Require Import String Ascii NArith ZArith Lia Bool List.
From Coq Require Import ZifyBool ZifyNat ZifyN.
From Verif Require Import Base Facts Value Data Parse De Span Ser Wp EnvOk Layout Lit Attr ShowFacts LexSafe LexWs LexRead DocSafe DocRead SerLex LexDoc Typing ValueFacts Repr ReprFacts TypedRead TypedMain VRepr AnyRead AnyMain Unwrap IntoRust Content ContentRead RangeSpec SerNum SerWp SerRepr SerOk ThmTyped ThmUnwrap ThmThrough ThmInto Buffered ContentWrite Tagged Owned TaggedRead.
Import ListNotations.
Open Scope N_scope.
Open Scope list_scope.
Open Scope sm_scope.

(** what a tagged newtype variant holds besides its tag *)
Fixpoint held {E : Env} (v : val) (es : list (value * value)) : Prop :=
  match v with
  | VNewtype _ v => held v es
  | VUnit | VUnitStruct _ => es = []
  | VUnitVariant _ k => es = [(XStr k, XUnit)]
  | VStruct _ _ | VMap _ | VNewVariant _ _ _ | VTupVariant _ _ _ | VStructVariant _ _ _ => buffers v (XMap es)
  | _ => False
  end.
(** the keys after the tag *)
Definition tail_keys (w : val) : list val :=
  match w with
  | VStruct _ fs => map (fun f => VStr (fst f)) (tl fs)
  | VMap es => map fst (tl es)
  | _ => []
  end.

Section Write.
Context {E : Env} {X : XidOk E} {FO : FloatOk E}.
Variables (o : opts) (cfg : option pconf).
Hypothesis VC : valid_config cfg.
Hypothesis SN : struct_names o cfg = false.
Local Notation e := (extensions o cfg).
Local Notation u := (x_unwrap_variant_newtypes (extensions o cfg)).
Variable fok : fk -> N -> Prop.
Hypothesis HF : forall k b, fok k b -> exists n, num_text n (SerLex.float_text k b ++ if number_suffixes cfg then fk_suffix k else []) /\
  num_into n (TFloat k) = Some (VFloat k b).
Hypothesis HC : forall k b, fok k b -> b < 2 ^ f_bits k /\ canon k b = b.
Local Notation EL := (ContentWrite.EL o cfg).
Local Notation sem := (ContentWrite.sem o cfg).

(** an element, of which a string is written as a string literal *)
Definition TL (v : val) (t : str) : Prop := EL v t /\ forall s, v = VStr s -> string_lit t s.
Lemma writes_str s : wf_str s -> writes o cfg TL (VStr s).
Proof.
  intros P i. destruct (emits_str cfg s P) as (t & EM & CL). cbn [ser]. apply (em_emits _ t); [exact EM|]. split; [|auto]. split.
  - exists (XStr s). split; [constructor|]. intros c _. now apply c_str.
  - intros s' Q. injection Q as <-. exact CL.
Qed.
Definition fine (v : val) : Prop := sem v /\ restricted e (compact_ranges cfg) false v /\ plain fok v.
Lemma writes_fine v : fine v -> writes o cfg TL v.
Proof.
  intros (H & R & P). destruct v; try (intros i; eapply em_conseq; [apply (ContentWrite.sem_elem o cfg SN _ i H R)|]; cbn beta; intros [] t i' b' d' (EL0 & Q); split; [split; [exact EL0|discriminate]|exact Q]).
  apply writes_str. exact P.
Qed.

(** ** Structs *)
Variable tag : str.
Lemma fields_items fs t : ~ In tag (map fst fs) -> neat (neat_entry (key) TL) fs t -> exists es,
  Forall2 (fun fv kx => fst kx = XStr (fst fv) /\ buffers (snd fv) (snd kx)) fs es /\
  forall c, (max_list (map (fun kv => need (snd kv)) fs) <= c)%nat -> items (item_text u tag field_name c) (map inr es) t.
Proof.
  intros NT H.
  assert (EN : forall kv t, neat_entry key TL kv t -> fst kv <> tag -> exists kx, (fst kx = XStr (fst kv) /\ buffers (snd kv) (snd kx)) /\
    forall c, (need (snd kv) <= c)%nat -> item_text u tag field_name c (inr kx) t).
  { intros kv t0 [k tk v tv w (-> & V) L ((xv & B2 & U2) & _)] NE. exists (XStr k, xv). split; [now split|]. intros c LE. cbn [fst snd] in *.
    apply (ix_other u tag field_name c (XStr k) (ident_text k) xv tv [] w); [intros [Q|Q]; [now injection Q|discriminate]|exists k; split; [reflexivity|now apply ident_text_lit]|constructor|exact L|now apply U2]. }
  apply neat_items in H. induction H as [|x t w HE LW|x t w w' l ts HE LW LW' _ IH]; cbn [map In] in NT.
  - exists []. split; [constructor|]. intros; constructor.
  - destruct (EN _ _ HE ltac:(tauto)) as (kx & B & U). exists [kx]. split; [repeat constructor; tauto|]. intros c LE. cbn [map max_list] in LE. apply it_last; [apply U; lia|assumption].
  - destruct (EN _ _ HE ltac:(tauto)) as (kx & B & U). destruct IH as (es & F & NE); [tauto|]. exists (kx :: es). split; [now constructor|]. intros c LE. cbn [map max_list] in LE. apply it_cons; auto; [apply U; lia|apply NE; lia].
Qed.
Lemma entries_items l t : (forall k x, In k (map fst l) -> buffers k x -> ~ tag_key tag x) -> neat (neat_entry TL TL) l t -> exists es,
  Forall2 (fun kv kx => buffers (fst kv) (fst kx) /\ buffers (snd kv) (snd kx)) l es /\
  forall c, (max_list (map (fun kv => Nat.max (need (fst kv)) (need (snd kv))) l) <= c)%nat -> items (item_text u tag (crepr u c) c) (map inr es) t.
Proof.
  intros NT H.
  assert (EN : forall kv t, neat_entry TL TL kv t -> (forall x, buffers (fst kv) x -> ~ tag_key tag x) -> exists kx, (buffers (fst kv) (fst kx) /\ buffers (snd kv) (snd kx)) /\
    forall c, (Nat.max (need (fst kv)) (need (snd kv)) <= c)%nat -> item_text u tag (crepr u c) c (inr kx) t).
  { intros kv t0 [k tk v tv w ((xk & B1 & U1) & _) L ((xv & B2 & U2) & _)] NE. exists (xk, xv). split; [now split|]. intros c LE. cbn [fst snd] in *.
    apply (ix_other u tag (crepr u c) c xk tk xv tv [] w); [now apply NE|apply U1; lia|constructor|exact L|apply U2; lia]. }
  apply neat_items in H. induction H as [|x t w HE LW|x t w w' l ts HE LW LW' _ IH]; cbn [map In] in NT.
  - exists []. split; [constructor|]. intros; constructor.
  - destruct (EN _ _ HE ltac:(intros; eauto)) as (kx & B & U). exists [kx]. split; [repeat constructor; tauto|]. intros c LE. cbn [map max_list] in LE. apply it_last; [apply U; lia|assumption].
  - destruct (EN _ _ HE ltac:(intros; eauto)) as (kx & B & U). destruct IH as (es & F & NE); [intros; eauto|]. exists (kx :: es). split; [now constructor|]. intros c LE. cbn [map max_list] in LE. apply it_cons; auto; [apply U; lia|apply NE; lia].
Qed.
(** the tag first *)
Lemma tag_first {K} (RK : K -> str -> Prop) (RK' : nat -> value -> str -> Prop) (kt : K) name l (Q : K * val -> value * value -> Prop) m t :
  (forall tk, RK kt tk -> exists k, tag_key tag k /\ forall c, RK' c k tk) ->
  neat (neat_entry RK TL) ((kt, VStr name) :: l) t ->
  (forall ts, neat (neat_entry RK TL) l ts -> exists es, Forall2 Q l es /\ forall c, (m <= c)%nat -> items (item_text u tag (RK' c) c) (map inr es) ts) ->
  exists es, Forall2 Q l es /\ forall c, (m <= c)%nat -> items (item_text u tag (RK' c) c) (inl name :: map inr es) t.
Proof.
  intros HK H HR.
  assert (EN : forall c t, neat_entry RK TL (kt, VStr name) t -> item_text u tag (RK' c) c (inl name) t).
  { intros c t0 H0. inversion H0 as [k tk v tv w RK0 L (_ & SL)]; subst. destruct (HK tk RK0) as (k & TK & RK1).
    apply (ix_tag u tag (RK' c) c k tk name tv [] w TK (RK1 c)); [constructor|exact L|]. now apply SL. }
  inversion H as [|a ta w H1 W1|a ta w l' ts H1 L1 HI]; subst.
  - exists []. split; [constructor|]. intros c _. apply it_last; [now apply EN|now apply ws_str_layout].
  - destruct (HR ts HI) as (es & F & U). exists es. split; [exact F|]. intros c LE.
    apply (it_cons _ _ ta [] w); [now apply EN|constructor|assumption|now apply U].
Qed.

(** the whole text *)
Lemma em_tagged_struct n name fs : wf_str name -> (forall kv, In kv fs -> fine (snd kv)) -> ~ In tag (map fst fs) ->
  em (ser o cfg (VStruct n ((tag, VStr name) :: fs))) 0 false 0 (fun _ t _ _ _ => exists es,
    Forall2 (fun fv kx => fst kx = XStr (fst fv) /\ buffers (snd fv) (snd kx)) fs es /\
    tagged_text u tag (need (VStruct n ((tag, VStr name) :: fs))) (inl name :: map inr es) t).
Proof.
  intros WN FI NT. apply (em_named_neat o cfg VC SN fok HF TL n ((tag, VStr name) :: fs) 0 false 0).
  { intros _. unfold numeric_range. cbn [forallb snd is_number andb]. apply andb_false_r. }
  { intros kv [<-|IN]; [now apply writes_str|]. apply writes_fine. now apply FI. }
  intros b' w w' ti BB L L' IT. destruct b'; [now discriminate BB|].
  destruct (tag_first key (fun _ => field_name) tag name fs (fun fv kx => fst kx = XStr (fst fv) /\ buffers (snd fv) (snd kx)) (max_list (map (fun kv => need (snd kv)) fs)) ti) as (es & F & NE); [| |intros ts; now apply fields_items|].
  { intros tk (-> & V). exists (XStr tag). split; [now left|]. intros _. exists tag. split; [reflexivity|now apply ident_text_lit]. }
  { exact IT. }
  exists es. split; [exact F|].
  match goal with |- tagged_text _ _ _ _ ?t => replace t with ([] ++ c_lp :: (w ++ w') ++ ti ++ [c_rp]) by (unfold str, char; cbn [app]; rewrite <- ?app_assoc; reflexivity) end.
  cbn [need map snd max_list]. apply tx_struct; [constructor|now apply layout_app|discriminate|]. apply NE. apply Nat.le_max_r.
Qed.
Lemma em_tagged_map name l : wf_str name -> wf_str tag -> (forall kv, In kv l -> fine (fst kv) /\ fine (snd kv)) ->
  (forall k x, In k (map fst l) -> buffers k x -> ~ tag_key tag x) ->
  em (ser o cfg (VMap ((VStr tag, VStr name) :: l))) 0 false 0 (fun _ t _ _ _ => exists es,
    Forall2 (fun kv kx => buffers (fst kv) (fst kx) /\ buffers (snd kv) (snd kx)) l es /\
    tagged_text u tag (need (VMap ((VStr tag, VStr name) :: l))) (inl name :: map inr es) t).
Proof.
  intros WN WT FI NT. apply (em_map_neat o cfg VC TL).
  { intros kv [<-|IN]; [split; now apply writes_str|]. destruct (FI kv IN). split; now apply writes_fine. }
  intros w ti L IT.
  destruct (tag_first TL (fun c => crepr u c) (VStr tag) name l (fun kv kx => buffers (fst kv) (fst kx) /\ buffers (snd kv) (snd kx)) (max_list (map (fun kv => Nat.max (need (fst kv)) (need (snd kv))) l)) ti) as (es & F & NE); [| |intros ts; now apply entries_items|].
  { intros tk (_ & SL). exists (XStr tag). split; [now left|]. intros c. apply c_str. now apply SL. }
  { exact IT. }
  exists es. split; [exact F|]. cbn [need map fst snd max_list]. apply tx_map; [exact L|]. apply NE. apply Nat.le_max_r.
Qed.
Lemma em_to_string w text (P : str -> Prop) : em (ser o cfg w) 0 false 0 (fun _ t _ _ _ => P t) -> to_string o cfg w = inl text ->
  exists a y t, text = a ++ t /\ attrs_text a y /\ exts_or y (o_exts o) = e /\ P t.
Proof.
  intros S TS. destruct (emits_new o cfg VC) as (a & y & EA & HA & EX).
  unfold to_string, to_writer in TS. unfold sbind in TS. rewrite EA in TS by reflexivity.
  specialize (S (sset_out (w_out (ser_init o cfg None) ++ a) (ser_init o cfg None)) eq_refl eq_refl eq_refl eq_refl).
  destruct (ser o cfg w _) as [un s'| |]; [|discriminate|contradiction]. destruct S as (t & OUT & _ & H).
  injection TS as <-. exists a, y, t. rewrite OUT. auto.
Qed.

(** ** The buffer without the tag *)
Lemma typed_fine tenv T v : typed tenv fok T v -> restricted e (compact_ranges cfg) false v -> fine v.
Proof. intros HT R. split; [|split; [exact R|now apply typed_plain with (1 := HT)]]. now apply (ser_buffered o cfg VC SN fok HF HC tenv v T). Qed.
(** no other key is taken for the tag *)
Definition untagged_keys (w : val) : Prop := forall k x, In k (tail_keys w) -> buffers k x -> ~ tag_key tag x.
Lemma field_keys n f fs : untagged_keys (VStruct n (f :: fs)) -> ~ In tag (map fst fs).
Proof.
  intros NT IN. cut (In (VStr tag) (tail_keys (VStruct n (f :: fs)))). { intros K. apply (NT _ (XStr tag) K); [constructor|now left]. }
  cbn [tail_keys tl]. apply in_map_iff in IN as (fv & <- & IN). exact (in_map (fun f => VStr (fst f)) _ _ IN).
Qed.
Lemma em_pair name k v : plain fok (VMap [(VStr tag, VStr name); (VStr k, v)]) -> fine v -> untagged_keys (VMap [(VStr tag, VStr name); (VStr k, v)]) ->
  em (ser o cfg (VMap [(VStr tag, VStr name); (VStr k, v)])) 0 false 0 (fun _ t _ _ _ => exists x, buffers v x /\
    tagged_text u tag (need (VMap [(VStr tag, VStr name); (VStr k, v)])) [inl name; inr (XStr k, x)] t).
Proof.
  intros PL FV NT. cbn [plain all fst snd] in PL. destruct PL as ((WT & WN) & (WK & PV) & _).
  eapply em_conseq; [apply (em_tagged_map name [(VStr k, v)] WN WT)|].
  - intros kv [<-|[]]. split; [|exact FV]. apply (typed_fine (fun _ => TUnit) TStr); [now constructor|exact Logic.I].
  - intros k0 x IN. exact (NT k0 x IN).
  - cbn beta. intros _ t i b d (es & F & TT). inversion F as [|? kx ? es' [B1 B2] F']; subst. inversion F'; subst. cbn [fst snd] in *.
    exists (snd kx). split; [exact B2|]. inversion B1; subst. destruct kx as [kx x]. cbn [fst snd] in *. subst kx. exact TT.
Qed.
Lemma em_tag_onto tenv name w : plain fok w -> restricted e (compact_ranges cfg) false w -> untagged_keys w -> forall v T, typed tenv fok T v -> tag_onto tag name v = Some w ->
  em (ser o cfg w) 0 false 0 (fun _ t _ _ _ => exists es, held v es /\ tagged_text u tag (need w) (inl name :: map inr es) t).
Proof.
  intros PL RS NT. induction v as [v F|v IH|n v IH|l IH|l IH|n l IH|l IH|n l IH|n k v IH|n k l IH|n k l IH] using val_ind'; intros T HT TO; try discriminate TO; cbn [tag_onto] in TO; try (injection TO as <-).
  - destruct v; try discriminate TO; try contradiction F; cbn [tag_onto] in TO; injection TO as <-.
    + destruct PL as ((WT & WN) & _). eapply em_conseq; [apply (em_tagged_map name [] WN WT)|]; [intros ? []|intros ? ? []|].
      cbn beta. intros _ t i b d (es & F1 & TT). inversion F1; subst. exists []. split; [reflexivity|exact TT].
    + destruct PL as ((WT & WN) & _). eapply em_conseq; [apply (em_tagged_map name [] WN WT)|]; [intros ? []|intros ? ? []|].
      cbn beta. intros _ t i b d (es & F1 & TT). inversion F1; subst. exists []. split; [reflexivity|exact TT].
    + eapply em_conseq; [apply (em_pair name vname VUnit PL); [|exact NT]|].
      { apply (typed_fine (fun _ => TUnit) TUnit); [constructor|exact Logic.I]. }
      cbn beta. intros _ t i b d (x & B & TT). inversion B; subst. exists [(XStr vname, XUnit)]. split; [reflexivity|exact TT].
  - remember (VNewtype n v) as v' eqn:Q. assert (HV : exists T', typed tenv fok T' v).
    { clear - HT Q. induction HT; try discriminate Q; auto. injection Q as -> ->. eauto. }
    destruct HV as (T' & HV). subst v'. exact (IH T' HV TO).
  - destruct PL as ((WT & WN) & _). destruct RS as (_ & RS). rewrite SerRepr.all_in in RS.
    eapply em_conseq; [apply (em_tagged_map name l WN WT)|].
    + remember (VMap l) as v' eqn:Q. clear IH. induction HT; try discriminate Q; auto. injection Q as ->. rewrite Forall_forall in H.
      intros kv IN. destruct (H kv IN) as [H1 H2]. destruct (RS kv IN). split; eapply typed_fine; eassumption.
    + exact NT.
    + cbn beta. intros _ t i b d (es & F & TT). exists es. split; [|exact TT]. now constructor.
  - destruct PL as (WN & _). destruct RS as (_ & _ & _ & RS). rewrite SerRepr.all_in in RS.
    eapply em_conseq; [apply (em_tagged_struct n name l WN)|].
    + remember (VStruct n l) as v' eqn:Q. clear IH. induction HT; try discriminate Q; auto. injection Q as -> ->. rewrite Forall_forall in H1.
      intros kv IN. destruct (H1 kv IN) as (T' & _ & H2). eapply typed_fine; [eassumption|now apply RS].
    + now apply field_keys in NT.
    + cbn beta. intros _ t i b d (es & F & TT). exists es. split; [|exact TT]. now constructor.
  - eapply em_conseq; [apply (em_pair name k v PL); [|exact NT]|].
    + destruct RS as (_ & (_ & RS) & _). remember (VNewVariant n k v) as v' eqn:Q. clear IH. induction HT; try discriminate Q; auto. injection Q as -> -> ->. eapply typed_fine; eassumption.
    + cbn beta. intros _ t i b d (x & B & TT). exists [(XStr k, x)]. split; [now constructor|exact TT].
  - eapply em_conseq; [apply (em_pair name k (VTupleStruct k l) PL); [|exact NT]|].
    + destruct RS as (_ & (_ & RS) & _). remember (VTupVariant n k l) as v' eqn:Q. clear IH. induction HT; try discriminate Q; auto. injection Q as -> -> ->.
      eapply typed_fine; [|exact RS]. apply ty_tuple_struct. eassumption.
    + cbn beta. intros _ t i b d (x & B & TT). inversion B; subst. exists [(XStr k, XSeq xs)]. split; [now constructor|exact TT].
  - eapply em_conseq; [apply (em_pair name k (VStruct k l) PL); [|exact NT]|].
    + destruct RS as (_ & (_ & RS) & _). remember (VStructVariant n k l) as v' eqn:Q. clear IH. induction HT; try discriminate Q; auto. injection Q as -> -> ->.
      eapply typed_fine; [|exact RS]. eapply (ty_struct tenv fok deny); eassumption.
    + cbn beta. intros _ t i b d (x & B & TT). inversion B; subst. exists [(XStr k, XMap es)]. split; [now constructor|exact TT].
Qed.
End Write.

(** ** Back to the type *)
Section Owned.
Context {E : Env}.
Variables (tenv : nat -> ty) (fok : fk -> N -> Prop).
(** what a written value buffers is read at its type *)
Theorem buffers_owned v x T : buffers v x -> typed tenv fok T v -> enough (fun f => of_owned tenv f T x = CVal v).
Proof. intros B HT. eapply enough_mono; [|apply (buffers_convert tenv fok _ _ B T HT)]. cbn beta. intros f H. now apply owned_more. Qed.
Theorem held_converts T v es : typed tenv fok T v -> held v es -> enough (fun f => of_owned tenv f T (XMap es) = CVal v).
Proof.
  intros HT. revert es. induction HT; cbn [held]; intros es H'; try contradiction.
  - subst es. apply enough_S. now apply enough_all.
  - subst es. apply enough_S. now apply enough_all.
  - apply enough_S. cbn [of_owned content_step]. eapply enough_mono; [|apply IHHT; exact H']. cbn beta. intros f ->. reflexivity.
  - apply (buffers_owned _ _ _ H'). now constructor.
  - apply (buffers_owned _ _ _ H'). now constructor.
  - subst es. apply enough_S. cbn [of_owned content_step]. apply enough_S, enough_all. intros f.
    erewrite find_variant_known by eassumption. reflexivity.
  - apply (buffers_owned _ _ _ H'). econstructor; eassumption.
  - apply (buffers_owned _ _ _ H'). econstructor; eassumption.
  - apply (buffers_owned _ _ _ H'). econstructor; eassumption.
  - apply enough_S. cbn [of_owned]. auto.
Qed.
End Owned.
