(** The serializer writes representations. *)
From Coq Require Import String Ascii NArith ZArith Lia Bool List Permutation.
From Coq Require Import ZifyBool ZifyNat ZifyN.
From Verif Require Import Base Facts EnvOk Value Data Parse De Ser Layout Attr LexWs LexRead DocRead Lit ShowFacts SerLex Repr ReprFacts TypedRead RangeSpec SerWp SerNum.
From Verif Require TypedMain.
Import ListNotations.
Open Scope N_scope.
Open Scope list_scope.
Open Scope sm_scope.

(** ** Induction over values *)
Section ValInd.
Variable P : val -> Prop.
Definition flat (v : val) : Prop :=
  match v with
  | VSome _ | VNewtype _ _ | VSeq _ | VTuple _ | VTupleStruct _ _ | VMap _ | VStruct _ _
  | VNewVariant _ _ _ | VTupVariant _ _ _ | VStructVariant _ _ _ => False
  | _ => True
  end.
Hypothesis H_flat : forall v, flat v -> P v.
Hypothesis H_some : forall v, P v -> P (VSome v).
Hypothesis H_newtype : forall n v, P v -> P (VNewtype n v).
Hypothesis H_seq : forall l, all P l -> P (VSeq l).
Hypothesis H_tuple : forall l, all P l -> P (VTuple l).
Hypothesis H_tuple_struct : forall n l, all P l -> P (VTupleStruct n l).
Hypothesis H_map : forall l, all (fun kv => P (fst kv) /\ P (snd kv)) l -> P (VMap l).
Hypothesis H_struct : forall n l, all (fun kv => P (snd kv)) l -> P (VStruct n l).
Hypothesis H_new_variant : forall n k v, P v -> P (VNewVariant n k v).
Hypothesis H_tup_variant : forall n k l, all P l -> P (VTupVariant n k l).
Hypothesis H_struct_variant : forall n k l, all (fun kv => P (snd kv)) l -> P (VStructVariant n k l).
Fixpoint val_ind' (v : val) : P v :=
  let go := fix go (l : list val) : all P l :=
    match l with [] => Logic.I | v :: l' => conj (val_ind' v) (go l') end in
  let gof := fix gof (l : list (str * val)) : all (fun kv => P (snd kv)) l :=
    match l with [] => Logic.I | v :: l' => conj (val_ind' (snd v)) (gof l') end in
  let gom := fix gom (l : list (val * val)) : all (fun kv => P (fst kv) /\ P (snd kv)) l :=
    match l with [] => Logic.I | v :: l' => conj (conj (val_ind' (fst v)) (val_ind' (snd v))) (gom l') end in
  match v with
  | VSome v => H_some v (val_ind' v)
  | VNewtype n v => H_newtype n v (val_ind' v)
  | VSeq l => H_seq l (go l)
  | VTuple l => H_tuple l (go l)
  | VTupleStruct n l => H_tuple_struct n l (go l)
  | VMap l => H_map l (gom l)
  | VStruct n l => H_struct n l (gof l)
  | VNewVariant n k v => H_new_variant n k v (val_ind' v)
  | VTupVariant n k l => H_tup_variant n k l (go l)
  | VStructVariant n k l => H_struct_variant n k l (gof l)
  | v => H_flat v Logic.I
  end.
End ValInd.
Lemma all_in {A} (P : A -> Prop) l : all P l <-> (forall a, In a l -> P a).
Proof.
  induction l as [|a l IH]; cbn; [split; [intros _ a []|auto]|]. unfold all in IH. rewrite IH. split.
  - intros [H1 H2] b [<-|IN]; auto.
  - intros H. split; [apply H; now left|]. intros b IN. apply H. now right.
Qed.
Lemma any_false {A} (p : A -> bool) l : any p l = false -> forall a, In a l -> p a = false.
Proof.
  induction l as [|a l IH]; cbn; [intros _ a []|]. intros H. apply orb_false_elim in H as [H1 H2].
  intros b [<-|IN]; [assumption|now apply IH].
Qed.

Section WithEnv.
Context {E : Env} {X : XidOk E} {FO : FloatOk E}.

(** ** Texts that are not options *)
Lemma no_option_nil : no_option [].
Proof. intros n r [<-|[<-|[]]] EQ; discriminate. Qed.
Lemma no_option_head c t : c <> 78 -> c <> 83 -> no_option (c :: t).
Proof. intros H1 H2 n r [<-|[<-|[]]] EQ; injection EQ; congruence. Qed.
Lemma no_option_app t r : no_option t -> starts_not xid_continue r -> no_option (t ++ r).
Proof.
  intros NO D n x IN EQ SN. apply app_eq_app in EQ. destruct EQ as (l & [[E1 E2]|[E1 E2]]).
  - apply (NO n l IN E1). subst x. destruct l as [|c l]; [exact Logic.I|]. exact SN.
  - destruct l as [|c l].
    + rewrite app_nil_r in E1. subst t. apply (NO n [] IN); [now rewrite app_nil_r|exact Logic.I].
    + subst r. cbn in D.
      assert (INC : In c (s_None ++ s_Some)).
      { apply in_or_app. destruct IN as [<-|[<-|[]]]; [left|right]; rewrite E1; apply in_or_app; right; now left. }
      rewrite xid_continue_ascii in D by (cbn in INC; lia).
      cbn in INC. unfold is_alpha, is_digit in D. lia.
Qed.
Lemma ident_text_no_option n : valid_identifier n = true -> no_option (ident_text n).
Proof.
  intros V. unfold ident_text. destruct (needs_raw n) eqn:NR; [apply no_option_head; discriminate|]. cbn [app].
  intros m x IN EQ SN. destruct n as [|c n]; [destruct IN as [<-|[<-|[]]]; discriminate|].
  cbn [needs_raw] in NR. apply orb_false_elim in NR as [NR RS]. apply orb_false_elim in NR as [_ N2].
  apply negb_false_iff in N2.
  assert (x = []).
  { destruct x as [|d x]; [reflexivity|exfalso]. cbn in SN.
    assert (In d n). { destruct IN as [<-|[<-|[]]]; injection EQ as -> ->; cbn; auto. }
    rewrite forallb_forall in N2. specialize (N2 d H). congruence. }
  subst x. rewrite app_nil_r in EQ. rewrite EQ in RS.
  assert (existsb (str_eqb m) reserved = true). { destruct IN as [<-|[<-|[]]]; reflexivity. } congruence.
Qed.
Lemma int_no_option t z : int_lit t z -> forall r, no_option (t ++ r).
Proof.
  intros H r. destruct H as [s neg p base ds z HS HP HD].
  assert (DG : forall c d, hex_digit c d -> c <> 78 /\ c <> 83) by (intros c d []; lia).
  assert (NE : exists c ds', ds = c :: ds' /\ c <> 78 /\ c <> 83).
  { clear - HD DG. induction HD as [c d HC _|s z c d _ (c0 & s' & -> & H) HC _|s z _ (c0 & s' & -> & H)].
    - exists c, []. split; [reflexivity|]. now apply DG with d.
    - now exists c0, (s' ++ [c]).
    - now exists c0, (s' ++ [c_us]). }
  destruct NE as (c & ds' & -> & N1 & N2).
  destruct HS; [destruct HP|..]; cbn [app s_0b s_0o s_0x]; try (apply no_option_head; discriminate). now apply no_option_head.
Qed.
Lemma float_no_option k sfx t b : float_lit k sfx t b -> forall r, no_option (t ++ r).
Proof.
  induction 1 as [t b HN _|t f HS|t b _ IH]; intros r.
  - destruct HN as [sg neg ds fr ex HS NE HD _ _]. destruct ds as [|d ds]; [congruence|]. cbn in HD. apply andb_prop in HD as [HD _].
    unfold is_digit in HD. destruct HS; apply no_option_head; lia.
  - destruct HS; try (apply no_option_head; discriminate). intros n x [<-|[<-|[]]] EQ; discriminate.
  - rewrite <- app_assoc. apply IH.
Qed.

(** ** [Some(..Some(None)..)] *)
Fixpoint somes (n : nat) : str :=
  match n with O => s_None | S n' => s_Some ++ c_lp :: somes n' ++ [c_rp] end.
Lemma emits_n n t : emits (swrite_n n t) (concat (repeat t n)).
Proof. induction n as [|n IH]; cbn [swrite_n repeat concat]; [apply emits_ret|]. apply emits_seq; [apply emits_write|exact IH]. Qed.
Lemma somes_concat n : concat (repeat s_Some_open n) ++ s_None ++ concat (repeat [c_rp] n) = somes n.
Proof.
  induction n as [|n IH]; [reflexivity|]. cbn [somes]. rewrite <- IH.
  assert (RP : forall m, concat (repeat [c_rp] (S m)) = concat (repeat [c_rp] m) ++ [c_rp]).
  { induction m as [|m IHm]; [reflexivity|]. cbn [repeat concat] in *. rewrite IHm at 1. reflexivity. }
  rewrite RP. cbn [repeat concat]. change s_Some_open with (s_Some ++ [c_lp]). rewrite <- !app_assoc. reflexivity.
Qed.

Section Config.
Variable o : opts.
Variable cfg : option pconf.
Hypothesis VC : valid_config cfg.
Local Notation e := (extensions o cfg).
(** the spellings it chooses *)
Definition sf (k : token) : Prop :=
  match k with
  | KInt b z t => b = number_suffixes cfg /\ t = show_Z z
  | KFloat s k b t => s = number_suffixes cfg /\ b < 2 ^ f_bits k /\ t = float_text k b ++ (if s then fk_suffix k else [])
  | KName t => ~ In t reserved
  | KRange => compact_ranges cfg = true
  end.
Local Notation rep := (repr e sf).

Lemma ident_text_name n : valid_identifier n = true -> sf (KName (ident_text n)).
Proof.
  intros V. cbn [sf]. unfold ident_text. destruct (needs_raw n) eqn:NR0.
  - intros IN. cbn in IN. repeat (destruct IN as [IN|IN]; [discriminate|]). exact IN.
  - cbn [app]. destruct n as [|c n]; [discriminate|]. cbn [needs_raw] in NR0. apply orb_false_elim in NR0 as [_ RS].
    intros IN. assert (existsb (str_eqb (c :: n)) reserved = true); [|congruence].
    apply existsb_exists. exists (c :: n). split; [exact IN|apply str_eqb_refl].
Qed.
(** None under [m] implicit Somes and unwrapped newtypes *)
Inductive noneish : bool -> nat -> val -> Prop :=
  | ns_none b : noneish b 0 VNone
  | ns_some b m v : noneish b m v -> noneish b (S m) (VSome v)
  | ns_newtype b m name v : x_unwrap_newtypes e = true \/ b = true -> noneish false m v ->
      noneish b m (VNewtype name v).
Lemma a_plain0 v t : x_unwrap_variant_newtypes e = false \/ unwraps e v = false -> rep v t -> arg e sf rep v t.
Proof. intros H R. rewrite <- (app_nil_r t). apply a_plain; auto. repeat constructor. Qed.
Lemma a_newtype0 n v t : x_unwrap_variant_newtypes e = true -> rep v t -> arg e sf rep (VNewtype n v) t.
Proof. intros H R. rewrite <- (app_nil_r t). apply a_newtype; auto. repeat constructor. Qed.
Lemma noneish_text b m v : noneish b m v -> x_implicit_some e = true -> (b = true -> x_unwrap_variant_newtypes e = true) ->
  arg e sf rep v (somes m) /\ (b = false -> rep v (somes m)).
Proof.
  intros H IS. induction H as [b|b m v H IH|b m n v OR H IH]; intros HB; cbn [somes].
  - split; [apply a_plain0; [now right|apply r_none]|intros _; apply r_none].
  - destruct (IH HB) as [HA HR].
    assert (RS : rep (VSome v) (s_Some ++ c_lp :: somes m ++ [c_rp])) by (apply (r_some e sf v (somes m) [] []); [constructor|constructor|exact HA]).
    split; [|auto]. destruct (x_unwrap_variant_newtypes e) eqn:U; [|now apply a_plain0; [left|]].
    apply (a_some e sf rep v (somes m) [] [] []); auto; repeat constructor.
  - destruct IH as [HA HR]; [discriminate|]. specialize (HR eq_refl). split.
    + destruct (x_unwrap_variant_newtypes e) eqn:U; [now apply a_newtype0|]. apply a_plain0; [now left|].
      destruct OR as [O| ->]; [now apply r_newtype_unwrapped|]. specialize (HB eq_refl). discriminate.
    + intros ->. destruct OR as [O|O]; [now apply r_newtype_unwrapped|discriminate].
Qed.
Lemma noneish_opt m v : noneish false m v -> opt_text e v = true.
Proof.
  intros H. remember false as b eqn:B. induction H as [b|b m v H IH|b m n v OR H IH]; cbn [opt_text]; auto.
  subst b. destruct OR as [->|]; [|discriminate]. cbn. auto.
Qed.

(** ** What the serializer writes for a value *)
Local Notation fine := (ranges_ok e cfg).
Definition rb (b : bool) (v : val) (t : str) : Prop := if b then arg e sf rep v t else rep v t.
Definition text_of (b : bool) (d : nat) (v : val) (t : str) : Prop :=
  (rb b v t /\ (x_implicit_some e = true -> (b = true -> hides e v = false) -> no_option t)) \/
  (x_implicit_some e = true /\ exists m, noneish b m v /\ t = somes (d + m)).
Definition post (i : nat) (b : bool) (d : nat) (v : val) : unit -> str -> nat -> bool -> nat -> Prop :=
  fun _ t i' b' d' => i' = i /\ (b = false -> b' = false) /\ (d = 0%nat -> d' = 0%nat) /\
    exists w t0, t = w ++ t0 /\ layout w /\ (b = false -> w = []) /\ text_of b d v t0.
Definition sem (v : val) : Prop := forall i b d,
  (b = true -> x_unwrap_variant_newtypes e = true) -> ((0 < d)%nat -> x_implicit_some e = true) ->
  (b = true -> x_implicit_some e = true -> hides_arg e v = false) -> fine b v ->
  em (ser o cfg v) i b d (post i b d v).
Definition esem (v : val) : Prop := sem v /\ fine false v.
(** an element of a compound *)
Definition elem (v : val) (t : str) : Prop :=
  rep v t /\ (x_implicit_some e = true -> opt_text e v = false -> no_option t).
Lemma sem_elem v i : esem v -> em (ser o cfg v) i false 0
  (fun _ t i' b' d' => elem v t /\ i' = i /\ b' = false /\ d' = 0%nat).
Proof.
  intros [H HF]. eapply em_conseq; [apply H; [discriminate|intros HD; inversion HD|discriminate|exact HF]|].
  intros _ t i' b' d' (-> & HB & HD & w & t0 & -> & _ & HW & HT). rewrite (HW eq_refl). cbn [app].
  split; [|auto]. destruct HT as [[HR HN]|(IS & m & HN & ->)].
  - split; [exact HR|]. intros IS _. apply HN; [exact IS|discriminate].
  - split; [now apply (noneish_text false m v)|]. intros _ OT. rewrite (noneish_opt m v HN) in OT. discriminate.
Qed.
(** the argument of a newtype variant or an explicit Some *)
Lemma sem_arg v i : sem v -> fine (x_unwrap_variant_newtypes e) v ->
  (x_unwrap_variant_newtypes e = true -> x_implicit_some e = true -> hides_arg e v = false) ->
  em (ser o cfg v) i (x_unwrap_variant_newtypes e) 0
  (fun _ t i' b' d' => i' = i /\ d' = 0%nat /\ exists w t0, t = w ++ t0 /\ layout w /\ arg e sf rep v t0).
Proof.
  intros H HF HH. eapply em_conseq; [apply H; [auto|intros HD; inversion HD|auto|exact HF]|].
  intros _ t i' b' d' (-> & HB & HD & w & t0 & -> & L & HW & HT). split; [reflexivity|]. split; [auto|].
  exists w, t0. split; [reflexivity|]. split; [exact L|]. destruct HT as [[HR _]|(IS & m & HN & ->)].
  - unfold rb in HR. destruct (x_unwrap_variant_newtypes e) eqn:U; [exact HR|]. apply a_plain0; auto.
  - apply (noneish_text _ m v HN IS). auto.
Qed.

(** ** Leaves *)
Lemma rb_plain b v t : (b = true -> unwraps e v = false) -> rep v t -> rb b v t.
Proof. intros U R. destruct b; [|exact R]. apply a_plain0; auto. Qed.
Lemma text_of_plain b d v t : rb b v t -> no_option t -> text_of b d v t.
Proof. intros R NO. left. auto. Qed.
Lemma em_leaf m v t i b d : emits m t -> rep v t -> unwraps e v = false -> no_option t -> em m i b d (post i b d v).
Proof.
  intros EM R U NO. apply (em_emits _ t); [exact EM|]. split; [reflexivity|]. split; [auto|]. split; [auto|].
  exists [], t. repeat split; auto; [constructor|]. apply text_of_plain; [|exact NO]. apply rb_plain; auto.
Qed.
(** writes a text with [P], and leaves the state alone *)
Definition puts (m : SM unit) (P : str -> Prop) : Prop := forall i b d,
  em m i b d (fun _ t i2 b2 d2 => P t /\ i2 = i /\ b2 = b /\ d2 = d).
Lemma puts_bind {B} m P (k : SM B) i b d Q : puts m P ->
  (forall t, P t -> em k i b d (fun x t' i2 b2 d2 => Q x (t ++ t') i2 b2 d2)) -> em (m ;~ k) i b d Q.
Proof.
  intros H HK. eapply em_bind; [apply H|]. cbn beta. intros _ t i' b' d' (HP & -> & -> & ->). now apply HK.
Qed.
Lemma puts_validate n : puts (validate_identifier n) (fun t => t = [] /\ valid_identifier n = true).
Proof. intros i b d. unfold validate_identifier. destruct (valid_identifier n) eqn:V; [apply em_ret; auto|apply em_fail]. Qed.
Lemma puts_ident n : puts (write_identifier n) (fun t => t = ident_text n /\ valid_identifier n = true).
Proof.
  intros i b d. destruct (valid_identifier n) eqn:V; [apply (em_emits _ (ident_text n)); [now apply emits_identifier|auto]|].
  intros s _ _ _ _. now rewrite identifier_refused.
Qed.
Lemma puts_conseq m (P P' : str -> Prop) : puts m P -> (forall t, P t -> P' t) -> puts m P'.
Proof. intros H HP i b d. eapply em_conseq; [apply H|]. cbn beta. intros _ t i2 b2 d2 (? & ?). auto. Qed.
(** the name in front of a parenthesis *)
Definition named (n t : str) : Prop := (forall gap, name_text e sf gap n t) /\ (t = [] \/ t = ident_text n /\ valid_identifier n = true).
Lemma named_nil n : struct_names o cfg = false -> named n [].
Proof.
  intros SN. unfold struct_names in SN. apply orb_false_elim in SN as [SN _]. split; [|auto]. intros gap. now constructor.
Qed.
Lemma named_ident n : valid_identifier n = true -> named n (ident_text n).
Proof.
  intros V. split; [|auto]. intros gap. rewrite <- (app_nil_r (ident_text n)). constructor; [now apply ident_text_name|now apply ident_text_lit|constructor|auto].
Qed.
Lemma puts_name n : puts (if struct_names o cfg then write_identifier n else validate_identifier n) (named n).
Proof.
  destruct (struct_names o cfg) eqn:SN.
  - eapply puts_conseq; [apply puts_ident|]. intros t (-> & V). now apply named_ident.
  - eapply puts_conseq; [apply puts_validate|]. intros t (-> & V). now apply named_nil.
Qed.
Lemma lp_not_xid r : starts_not xid_continue (c_lp :: r).
Proof. cbn. rewrite xid_continue_ascii by (cbv; reflexivity). reflexivity. Qed.
Lemma named_no_option n t r : named n t -> no_option (t ++ c_lp :: r).
Proof.
  intros [_ [->|[-> V]]]; [apply no_option_head; discriminate|]. apply no_option_app; [now apply ident_text_no_option|apply lp_not_xid].
Qed.

Lemma sem_flat (fok : fk -> N -> Prop) v : (forall k b, fok k b -> b < 2 ^ f_bits k /\ canon k b = b) -> flat v -> plain fok v -> sem v.
Proof.
  intros HF F P i b d HB HD HH RF. destruct v; try contradiction; cbn [ser].
  - eapply em_leaf; [apply emits_write|constructor|reflexivity|]. destruct b0; apply no_option_head; discriminate.
  - destruct (int_supported k) eqn:SP; [|unfold ser_int; rewrite SP; apply em_fail].
    eapply em_leaf; [now apply emits_int| |reflexivity|apply (int_no_option _ z), show_Z_lit].
    destruct (number_suffixes cfg) eqn:NS; [now apply r_int_suffix; [|..|apply show_Z_lit]|].
    rewrite app_nil_r. now apply r_int; [|..|apply show_Z_lit].
  - destruct (HF _ _ P) as [B C].
    assert (FL : float_lit k (number_suffixes cfg) (float_text k bits ++ if number_suffixes cfg then fk_suffix k else []) bits).
    { destruct (number_suffixes cfg); [constructor|rewrite app_nil_r]; rewrite <- C at 2; now apply float_text_lit. }
    eapply em_leaf; [apply emits_float| |reflexivity|rewrite <- (app_nil_r (_ ++ _)); eapply float_no_option; exact FL].
    eapply r_float; [|exact FL]. split; [reflexivity|]. split; [assumption|reflexivity].
  - destruct (emits_char c) as (t & EM & CL). eapply em_leaf; [exact EM|now constructor|reflexivity|]. destruct CL; apply no_option_head; discriminate.
  - destruct (emits_str cfg s) as (t & EM & CL); [exact P|]. eapply em_leaf; [exact EM|now constructor|reflexivity|]. destruct CL; apply no_option_head; discriminate.
  - destruct (emits_bytes cfg b0) as (t & EM & CL); [exact P|]. eapply em_leaf; [exact EM|now constructor|reflexivity|]. destruct CL; apply no_option_head; discriminate.
  - unfold ser_unit. apply em_get. intros s _ NT _. rewrite NT. destruct b.
    + apply em_ret. repeat split; auto. exists [], []. repeat split; auto; [constructor|]. apply text_of_plain; [|apply no_option_nil].
      apply a_unit; auto; repeat constructor.
    + apply em_write. repeat split; auto. exists [], s_unit. repeat split; auto; [constructor|]. apply text_of_plain; [|apply no_option_head; discriminate].
      constructor.
  - unfold ser_unit_struct. destruct (compact_ranges cfg && str_eqb name s_RangeFull) eqn:CR.
    { apply andb_prop in CR as [CR RN]. apply str_eqb_eq in RN as ->. apply em_write. repeat split; auto.
      exists [], s_dotdot. repeat split; auto; [constructor|]. apply text_of_plain; [|apply no_option_head; discriminate].
      destruct b; cbn [rb]; [rewrite <- (app_nil_r s_dotdot); apply a_range; [auto|exact CR|constructor|repeat constructor]|apply r_range; [exact CR|constructor]]. }
    clear CR. apply em_get. intros s _ NT _. rewrite NT. destruct b; cbn [negb].
    + rewrite andb_false_r. eapply puts_bind; [apply puts_validate|]. intros t (-> & V). unfold ser_unit. apply em_get. intros s' _ NT' _. rewrite NT'.
      apply em_ret. repeat split; auto. exists [], []. repeat split; auto; [constructor|]. apply text_of_plain; [|apply no_option_nil].
      apply a_unit_struct; auto; repeat constructor.
    + rewrite andb_true_r. destruct (struct_names o cfg) eqn:SN.
      * eapply em_conseq; [apply puts_ident|]. cbn beta. intros u t i2 b2 d2 ((-> & V) & -> & -> & ->). repeat split; auto.
        exists [], (ident_text name). repeat split; auto; [constructor|]. apply text_of_plain; [|now apply ident_text_no_option].
        apply r_unit_struct_name; [now apply ident_text_name|now apply ident_text_lit].
      * eapply puts_bind; [apply puts_validate|]. intros t (-> & V). unfold ser_unit. apply em_get. intros s' _ NT' _. rewrite NT'.
        apply em_write. repeat split; auto. exists [], s_unit. repeat split; auto; [constructor|]. apply text_of_plain; [|apply no_option_head; discriminate].
        apply r_unit_struct. unfold struct_names in SN. now apply orb_false_elim in SN.
  - unfold ser_none. apply em_get. intros s _ _ SD. rewrite SD.
    eapply em_mod_bind with (i' := i) (b' := b) (d' := 0%nat); [auto|intros s' <- <- <-; auto|].
    apply (em_emits _ (somes d)).
    { rewrite <- somes_concat. apply emits_seq; [apply emits_n|]. apply emits_seq; [apply emits_write|apply emits_n]. }
    repeat split; auto. exists [], (somes d). repeat split; auto; [constructor|].
    destruct (x_implicit_some e) eqn:IS; [right|left].
    + split; [exact IS|]. exists 0%nat. split; [constructor|]. now rewrite Nat.add_0_r.
    + split; [|congruence]. assert (d = 0%nat) as -> by (destruct d; [reflexivity|]; specialize (HD ltac:(lia)); congruence).
      apply rb_plain; [auto|apply r_none].
  - unfold ser_unit_variant. eapply puts_bind; [apply puts_validate|]. intros t (-> & _).
    eapply em_conseq; [apply puts_ident|]. cbn beta. intros u t i2 b2 d2 ((-> & V) & -> & -> & ->). repeat split; auto.
    exists [], (ident_text vname). repeat split; auto; [constructor|]. apply text_of_plain; [|now apply ident_text_no_option].
    apply rb_plain; [auto|]. apply r_unit_variant; [now apply ident_text_name|now apply ident_text_lit].
Qed.

(** ** Options and newtypes *)
Lemma sem_some v : sem v -> sem (VSome v).
Proof.
  intros H i b d HB HD HH RF. cbn [ser]. unfold ser_some. cbn [hides_arg] in HH. assert (RV : fine (if x_implicit_some e then b else x_unwrap_variant_newtypes e) v) by exact RF.
  destruct (x_implicit_some e) eqn:IS.
  - eapply em_mod_bind with (i' := i) (b' := b) (d' := S d); [auto|intros s H1 H2 H3; cbn; auto|].
    eapply em_bind; [apply em_guard, (H i b (S d)); [exact HB|auto| |exact RV]|].
    { intros BT _. specialize (HH BT eq_refl). destruct v; try reflexivity. exact HH. }
    intros u t i' b' d' (-> & PB & _ & w & t0 & -> & L & HW & HT).
    apply em_mod; [auto|]. intros s SI SB SD. cbn. rewrite app_nil_r. split; [exact SI|]. split; [intros ->; rewrite SB; auto|].
    split; [auto|]. exists w, t0. repeat split; auto. destruct HT as [[HR HN]|(_ & m & HM & ->)].
    + assert (NO : no_option t0) by (apply HN; auto). left. split; [|auto]. destruct b; cbn [rb] in *.
      * apply a_implicit; auto.
      * now apply r_implicit.
    + right. split; [exact IS|]. exists (S m). split; [now constructor|]. f_equal. lia.
  - eapply em_mod_bind with (i' := i) (b' := x_unwrap_variant_newtypes e) (d' := d); [auto|intros s H1 H2 H3; cbn; auto|].
    assert (d = 0%nat) as -> by (destruct d; [reflexivity|]; specialize (HD ltac:(lia)); congruence).
    apply em_write_bind. eapply em_bind; [apply em_guard, sem_arg; [exact H|exact RV|congruence]|].
    intros u t i' b' d' (-> & -> & w & t0 & -> & L & HA).
    apply em_write_bind. apply em_mod; [auto|]. intros s SI SB SD. cbn [sset_nt s_indent s_nt s_isd]. split; [exact SI|]. split; [auto|].
    split; [intros _; exact SD|]. exists [], (s_Some_open ++ (w ++ t0) ++ [c_rp]). rewrite app_nil_r. repeat split; auto; [constructor|].
    left. split; [|congruence]. apply rb_plain; [intros _; exact IS|]. rewrite <- app_assoc. apply (r_some e sf v t0 [] w); auto. constructor.
Qed.
Lemma sem_newtype n v : sem v -> sem (VNewtype n v).
Proof.
  intros H i b d HB HD HH RF. assert (RV : fine false v) by exact RF. cbn [ser]. unfold ser_newtype. apply em_get. intros s _ NT _. rewrite NT.
  destruct (x_unwrap_newtypes e || b) eqn:U.
  - eapply em_mod_bind with (i' := i) (b' := false) (d' := d); [auto|intros s' H1 H2 H3; cbn; auto|].
    eapply puts_bind; [apply puts_validate|]. intros t (-> & _). cbn [app].
    eapply em_conseq; [apply em_guard, (H i false d); [discriminate|exact HD|discriminate|exact RV]|].
    intros u t i' b' d' (-> & PB & PD & w & t0 & -> & L & HW & HT). split; [auto|]. split; [auto|]. split; [auto|].
    exists w, t0. repeat split; auto. destruct HT as [[HR HN]|(IS & m & HM & ->)].
    + left. split; [|intros IS _; apply HN; [exact IS|discriminate]]. destruct b; cbn [rb] in *; [apply a_newtype0; auto|].
      rewrite orb_false_r in U. now apply r_newtype_unwrapped.
    + right. split; [exact IS|]. exists m. split; [|reflexivity]. constructor; [|exact HM]. now apply orb_prop in U.
  - apply orb_false_elim in U as [U ->]. eapply puts_bind; [apply puts_name|]. intros tn HN.
    eapply em_mod_bind with (i' := i) (b' := false) (d' := 0%nat); [auto|intros s' H1 H2 H3; cbn; auto|].
    apply em_write_bind. eapply em_bind; [apply em_guard, sem_elem; split; assumption|]. cbn beta.
    intros u t i' b' d' ((HR & _) & -> & -> & ->). apply em_write. repeat split; auto.
    exists [], (tn ++ [c_lp] ++ t ++ [c_rp]). repeat split; auto; [constructor|].
    apply text_of_plain; [|now apply named_no_option with n]. apply (r_newtype e sf n v tn t [] []); auto; [apply HN|repeat constructor|repeat constructor].
Qed.
Lemma sem_new_variant n k v : sem v ->
  (x_unwrap_variant_newtypes e = true -> x_implicit_some e = true -> hides_arg e v = false) -> sem (VNewVariant n k v).
Proof.
  intros H HV i b d HB HD HH RF. cbn [ser]. unfold ser_newtype_variant.
  eapply puts_bind; [apply puts_validate|]. intros t (-> & _). cbn [app].
  eapply puts_bind; [apply puts_ident|]. intros tk (-> & V).
  apply em_write_bind. eapply em_mod_bind with (i' := i) (b' := x_unwrap_variant_newtypes e) (d' := 0%nat); [auto|intros s' H1 H2 H3; cbn; auto|].
  eapply em_bind; [apply em_guard, sem_arg; [exact H|exact RF|exact HV]|].
  intros u t i' b' d' (-> & -> & w & t0 & -> & L & HA).
  eapply em_mod_bind with (i' := i) (b' := false) (d' := 0%nat); [auto|intros s' H1 H2 H3; cbn; auto|].
  apply em_write. repeat split; auto. exists [], (ident_text k ++ [c_lp] ++ (w ++ t0) ++ [c_rp]). repeat split; auto; [constructor|].
  apply text_of_plain.
  - apply rb_plain; [auto|]. rewrite <- app_assoc. apply (r_new_variant e sf n k v (ident_text k) t0 [] w); auto; [now apply ident_text_name|now apply ident_text_lit|constructor].
  - apply no_option_app; [now apply ident_text_no_option|apply lp_not_xid].
Qed.

(** ** Compounds *)
Lemma puts_lays m : (forall i, lays m i i) -> puts m layout.
Proof. intros H i b d. apply H. Qed.
Lemma puts_sep wide (first : bool) : puts (if first then sret tt else separator cfg wide)
  (fun t => exists w, layout w /\ t = (if first then [] else [c_comma]) ++ w).
Proof.
  intros i b d. destruct first.
  - apply em_ret. split; [|auto]. exists []. split; [constructor|reflexivity].
  - eapply em_conseq; [apply em_separator; exact VC|]. auto.
Qed.
Lemma puts_indent (wide : bool) : puts (if wide then indent cfg else sret tt) layout.
Proof. apply puts_lays. intros i. destruct wide; [now apply lays_indent|apply lays_ret]. Qed.
Lemma puts_indent' (compact : bool) : puts (if compact then sret tt else indent cfg) layout.
Proof. apply puts_lays. intros i. destruct compact; [apply lays_ret|now apply lays_indent]. Qed.
Lemma puts_pretty_sep : puts (match cfg with Some p => write (p_separator p) | None => sret tt end) layout.
Proof.
  unfold valid_config in VC. intros i b d. destruct cfg as [p|]; [|apply lays_ret]. apply lays_write, ws_str_layout. tauto.
Qed.
Lemma comment_plain t : Forall (fun c => c <> c_slash /\ c <> c_star) t -> comment_body (t ++ [c_star; c_slash]).
Proof.
  induction 1 as [|c t (H1 & H2) _ IH]; [constructor|]. cbn [app]. apply cb_char; [exact IH|..]; unfold starts_with; cbn [strip_prefix].
  - assert (Q : c =? c_slash = false) by now apply N.eqb_neq. now rewrite N.eqb_sym, Q.
  - assert (Q : c =? c_star = false) by now apply N.eqb_neq. now rewrite N.eqb_sym, Q.
Qed.
Lemma enum_layout n : layout (s_enum_open ++ show_N n ++ s_enum_close).
Proof.
  change (s_enum_open ++ show_N n ++ s_enum_close) with (c_slash :: c_star :: 91 :: show_N n ++ [93] ++ [c_star; c_slash] ++ [32]).
  replace (91 :: show_N n ++ [93] ++ [c_star; c_slash] ++ [32]) with (((91 :: show_N n ++ [93]) ++ [c_star; c_slash]) ++ [32])
    by (cbn [app]; rewrite <- !app_assoc; reflexivity).
  apply l_block; [|repeat constructor]. apply comment_plain. constructor; [split; discriminate|].
  apply Forall_app. split; [|repeat constructor; discriminate].
  assert (DG : forallb is_digit (show_N n) = true) by apply digits_dec.
  apply Forall_forall. intros c IN. rewrite forallb_forall in DG. specialize (DG c IN). unfold is_digit in DG. split; intros ->; discriminate.
Qed.
(** between elements, [v] is written as a text related to it by [R] *)
Definition writes (R : val -> str -> Prop) (v : val) : Prop := forall i,
  em (ser o cfg v) i false 0 (fun _ t i' b' d' => R v t /\ i' = i /\ b' = false /\ d' = 0%nat).
Lemma sem_writes v : esem v -> writes elem v.
Proof. intros H i. now apply sem_elem. Qed.
Lemma seq_steps R i v : writes R v -> steps (fun c v => seq_elem cfg c (ser o cfg v)) fst R i v.
Proof.
  intros H [first idx]. unfold seq_elem. cbn [fst].
  eapply puts_bind; [apply puts_sep|]. intros t1 (w1 & L1 & ->).
  eapply puts_bind; [apply puts_indent'|]. intros w2 L2.
  eapply em_bind with (Q1 := fun _ t i2 b2 d2 => layout t /\ i2 = i /\ b2 = false /\ d2 = 0%nat).
  - destruct cfg as [p|]; [|apply em_ret; repeat constructor]. apply em_get. intros s _ _ _.
    destruct (_ && _); [|apply em_ret; repeat constructor]. apply em_write_bind, em_ret. rewrite app_nil_r. split; [apply enum_layout|auto].
  - intros idx' w3 i2 b2 d2 (L3 & -> & -> & ->). eapply em_bind; [apply em_guard, H|]. cbn beta.
    intros u t i2 b2 d2 (HE & -> & -> & ->). apply em_ret. split; [auto|]. exists (w1 ++ w2 ++ w3), t. split; [now repeat apply layout_app|].
    split; [exact HE|]. rewrite app_nil_r, <- !app_assoc. reflexivity.
Qed.
Lemma tuple_steps R i v : writes R v -> steps (fun c v => tuple_elem cfg c (ser o cfg v)) (fun b => b) R i v.
Proof.
  intros H first. unfold tuple_elem.
  eapply puts_bind; [apply puts_sep|]. intros t1 (w1 & L1 & ->).
  eapply puts_bind; [apply puts_indent|]. intros w2 L2.
  eapply em_bind; [apply em_guard, H|]. cbn beta.
  intros u t i2 b2 d2 (HE & -> & -> & ->). apply em_ret. split; [auto|]. exists (w1 ++ w2), t. split; [now apply layout_app|].
  split; [exact HE|]. rewrite app_nil_r, <- !app_assoc. reflexivity.
Qed.
Lemma map_steps R i kv : writes R (fst kv) /\ writes R (snd kv) ->
  steps (fun c kv => map_entry cfg c (ser o cfg (fst kv)) (ser o cfg (snd kv))) (fun b => b) (entry R R) i kv.
Proof.
  intros [HK HV] first. unfold map_entry.
  eapply puts_bind; [apply puts_sep|]. intros t1 (w1 & L1 & ->).
  eapply puts_bind; [apply puts_indent'|]. intros w2 L2.
  eapply em_bind; [apply em_guard, HK|]. cbn beta. intros u tk i2 b2 d2 (HE & -> & -> & ->).
  apply em_write_bind. eapply puts_bind; [apply puts_pretty_sep|]. intros w3 L3.
  eapply em_bind; [apply em_guard, HV|]. cbn beta. intros u' tv i2 b2 d2 (HE' & -> & -> & ->).
  apply em_ret. split; [auto|]. exists (w1 ++ w2), (tk ++ [] ++ c_colon :: w3 ++ tv). split; [now apply layout_app|].
  split; [destruct kv; constructor; auto; constructor|]. rewrite app_nil_r, <- !app_assoc. reflexivity.
Qed.
(** field names *)
Definition key (k t : str) : Prop := t = ident_text k /\ valid_identifier k = true.
Lemma struct_steps R i kv : writes R (snd kv) ->
  steps (fun c kv => struct_field cfg c (fst kv) (ser o cfg (snd kv))) (fun b => b) (entry key R) i kv.
Proof.
  intros HV first. unfold struct_field. apply em_get. intros s _ _ _. destruct (match cfg with Some _ => _ | None => _ end) as [inner restore].
  eapply em_mod_bind with (i' := i) (b' := false) (d' := 0%nat); [auto|intros s' H1 H2 H3; cbn; auto|].
  eapply puts_bind; [apply puts_sep|]. intros t1 (w1 & L1 & ->).
  eapply puts_bind with (P := layout).
  { apply puts_lays. intros i0. destruct (compact_structs cfg); [apply lays_ret|].
    assert (LI := lays_indent cfg VC i0). assert (LD := lays_doc cfg VC i0). destruct cfg as [p|]; [|apply lays_ret].
    eapply lays_seq; [exact LI|exact LD]. }
  intros w2 L2. eapply puts_bind; [apply puts_ident|]. intros tk HK.
  apply em_write_bind. eapply puts_bind; [apply puts_pretty_sep|]. intros w3 L3.
  eapply em_bind; [apply em_guard, HV|]. cbn beta. intros u' tv i2 b2 d2 (HE' & -> & -> & ->).
  eapply em_mod_bind with (i' := i) (b' := false) (d' := 0%nat); [auto|intros s' H1 H2 H3; cbn; auto|].
  apply em_ret. split; [auto|]. exists (w1 ++ w2), (tk ++ [] ++ c_colon :: w3 ++ tv). split; [now apply layout_app|].
  split; [destruct kv; constructor; auto; constructor|]. rewrite app_nil_r, <- !app_assoc. reflexivity.
Qed.
(** how a list of items begins *)
Lemma items_head {A} (R : A -> str -> Prop) l t : items R l t ->
  t = [] \/ exists a l' t0 r, l = a :: l' /\ R a t0 /\ delim r /\ t = t0 ++ r.
Proof.
  intros [|a t0 w HR L|a t0 w w' l' ts HR L L' _]; [now left|right|right].
  - exists a, [], t0, w. repeat split; auto. rewrite <- (app_nil_r w). apply layout_delim; [exact L|exact Logic.I].
  - exists a, l', t0, (w ++ c_comma :: w' ++ ts). repeat split; auto. apply layout_delim; [exact L|cbn; tauto].
Qed.
Lemma tuple_no_option l t : items elem l t -> x_implicit_some e = true ->
  (match l with v :: _ => opt_text e v | [] => false end) = false -> no_option t.
Proof.
  intros H IS OT. destruct (items_head _ _ _ H) as [->|(v & l' & t0 & r & -> & (_ & HN) & D & ->)]; [apply no_option_nil|].
  apply no_option_app; [auto|now apply delim_xid].
Qed.
Lemma struct_no_option l t : items (entry key elem) l t -> no_option t.
Proof.
  intros H. destruct (items_head _ _ _ H) as [->|(v & l' & t0 & r & -> & HE & D & ->)]; [apply no_option_nil|].
  destruct HE as [k tk v tv w w' (-> & V) L L' _]. rewrite <- app_assoc.
  apply no_option_app; [now apply ident_text_no_option|]. apply delim_xid. rewrite <- app_assoc. apply layout_delim; [exact L|cbn; tauto].
Qed.
Lemma elem_items l t : items elem l t -> items rep l t.
Proof. apply items_mono. now intros a t' []. Qed.
Lemma map_items l t : items (entry elem elem) l t -> items (entry rep rep) l t.
Proof. apply items_mono, entry_mono; now intros a t' []. Qed.
Lemma field_items l t : items (entry key elem) l t -> items (entry field_key_text rep) l t.
Proof. apply items_mono, entry_mono; [|now intros a t' []]. intros k t' (-> & V). now apply ident_text_lit. Qed.

Lemma em_drop i b d : em drop_compound i b d (fun _ t i2 b2 d2 => t = [] /\ i2 = i /\ b2 = b /\ d2 = d).
Proof. apply em_mod; [auto|]. intros s H1 H2 H3. cbn. auto. Qed.
Lemma em_ext {A} (m m' : SM A) i b d Q : (forall s, m s = m' s) -> em m' i b d Q -> em m i b d Q.
Proof. intros H HM s. rewrite H. apply HM. Qed.
Lemma sbind_ext {A B} (m m' : SM A) (k k' : A -> SM B) s : (forall s, m s = m' s) -> (forall a s, k a s = k' a s) -> sbind m k s = sbind m' k' s.
Proof. intros H HK. unfold sbind. rewrite H. destruct (m' s); auto. Qed.

(** opening brackets *)
Lemma em_open c (bw : bool) len i b d :
  em (smod (fun s => sset_isd 0 (sset_nt false s)) ;~ write [c] ;~ open_wide cfg bw len) i b d
    (fun _ t i2 b2 d2 => (exists w, layout w /\ t = c :: w) /\ i2 = wider cfg bw i /\ b2 = false /\ d2 = 0%nat).
Proof.
  eapply em_mod_bind with (i' := i) (b' := false) (d' := 0%nat); [auto|intros s' H1 H2 H3; cbn; auto|].
  apply em_write_bind. eapply em_conseq; [apply lays_open; exact VC|]. cbn beta. intros _ w i2 b2 d2 (L & -> & -> & ->).
  split; [|auto]. exists w. auto.
Qed.
Ltac apps := unfold str, char; cbn [app]; rewrite <- ?app_assoc; cbn [app]; rewrite <- ?app_assoc; cbn [app]; rewrite ?app_nil_r; reflexivity.
Lemma post_plain i b d v t t' : t' = t -> (b = true -> unwraps e v = false) -> rep v t -> no_option t -> post i b d v tt t' i false 0%nat.
Proof.
  intros -> U R NO. repeat split; auto. exists [], t. repeat split; auto; [constructor|]. apply text_of_plain; [now apply rb_plain|exact NO].
Qed.
Lemma post_arg i d v w t : layout w -> arg e sf rep v t -> (x_implicit_some e = true -> hides e v = false -> no_option t) ->
  post i true d v tt (w ++ t) i false 0%nat.
Proof.
  intros L R NO. repeat split; auto. exists w, t. repeat split; auto; [discriminate|]. left. split; [exact R|]. auto.
Qed.
Lemma fine_all l : all sem l -> ranges_ok e cfg false (VSeq l) -> all (writes elem) l.
Proof. rewrite !all_in. intros H RF a IN. apply sem_writes. split; [auto|]. intros CR. assert (R := RF CR). cbn [range_fine] in R. rewrite all_in in R. auto. Qed.
Lemma fine_entries l : all (fun kv => sem (fst kv) /\ sem (snd kv)) l -> ranges_ok e cfg false (VMap l) -> all (fun kv => writes elem (fst kv) /\ writes elem (snd kv)) l.
Proof.
  rewrite !all_in. intros H RF a IN. destruct (H a IN) as [H1 H2]. split; apply sem_writes; (split; [assumption|]); intros CR; assert (R := RF CR); cbn [range_fine] in R; rewrite all_in in R;
    destruct (R a IN); auto.
Qed.
Lemma fine_fields l : all (fun kv => sem (snd kv)) l -> ranges_ok e cfg false (VStructVariant [] [] l) -> all (fun kv => writes elem (snd kv)) l.
Proof. rewrite !all_in. intros H RF a IN. apply sem_writes. split; [auto|]. intros CR. assert (R := RF CR). cbn [range_fine] in R. rewrite all_in in R. auto. Qed.
Lemma sem_seq l : all sem l -> sem (VSeq l).
Proof.
  intros H0 i b d HB HD HH RF. assert (H := fine_all l H0 RF). cbn [ser]. eapply em_bind; [apply em_open|]. cbn beta.
  intros _ t i2 b2 d2 ((w & L & ->) & -> & -> & ->).
  apply (em_block cfg VC (fun c v => seq_elem cfg c (ser o cfg v)) fst elem i l (true, 0%nat) wide_seq (negb (compact_arrays cfg))
    (fun _ => write [c_rb] ;~ drop_compound)); [intros a IN; apply seq_steps; now apply (proj1 (all_in _ _) H)|reflexivity|].
  intros w' ti c' L' IT. apply em_write_bind. eapply em_conseq; [apply em_drop|]. cbn beta. intros [] t i2 b2 d2 (-> & -> & -> & ->).
  apply (post_plain _ _ _ _ (c_lb :: (w ++ w') ++ ti ++ [c_rb])); [apps|auto| |apply no_option_head; discriminate]. apply r_seq; [now apply layout_app|now apply elem_items].
Qed.
(** a tuple, after whatever comes before its opening parenthesis *)
Lemma em_tuple_block R l i ntv {Q : unit -> str -> nat -> bool -> nat -> Prop} : all (writes R) l ->
  (forall w ti, layout w -> items R l ti -> Q tt ((w ++ ti) ++ (if ntv : bool then [] else [c_rp])) i false 0%nat) ->
  em (f <~ loop (fun c v => tuple_elem cfg c (ser o cfg v)) l true ;; tuple_close cfg ntv f) (wider cfg (separate_tuple_members cfg) i) false 0 Q.
Proof.
  intros H HQ. apply (em_block cfg VC (fun c v => tuple_elem cfg c (ser o cfg v)) (fun b => b) R i l true wide_tuple (separate_tuple_members cfg)
    (fun _ => (if ntv then sret tt else write [c_rp]) ;~ drop_compound)); [intros a IN; apply tuple_steps; now apply (proj1 (all_in _ _) H)|reflexivity|].
  intros w ti c' L IT. destruct ntv.
  - apply em_ret_bind. eapply em_conseq; [apply em_drop|]. cbn beta. intros [] t i2 b2 d2 (-> & -> & -> & ->). auto.
  - apply em_write_bind. eapply em_conseq; [apply em_drop|]. cbn beta. intros [] t i2 b2 d2 (-> & -> & -> & ->). apply HQ; auto.
Qed.
Lemma em_tuple_open len i b d : em (tuple_open cfg len) i b d
  (fun ntv t i2 b2 d2 => (ntv = b /\ exists w, layout w /\ t = (if b then [] else [c_lp]) ++ w) /\
     i2 = wider cfg (separate_tuple_members cfg) i /\ b2 = false /\ d2 = 0%nat).
Proof.
  unfold tuple_open. apply em_get. intros s _ NT _. rewrite NT.
  eapply em_mod_bind with (i' := i) (b' := false) (d' := 0%nat); [auto|intros s' H1 H2 H3; cbn; auto|].
  assert (OP : em (open_wide cfg (separate_tuple_members cfg) len ;~ sret b) i false 0
    (fun ntv t i2 b2 d2 => (ntv = b /\ layout t) /\ i2 = wider cfg (separate_tuple_members cfg) i /\ b2 = false /\ d2 = 0%nat)).
  { eapply lays_bind; [apply lays_open; exact VC|]. intros w L. apply em_ret. rewrite app_nil_r. auto. }
  destruct b; [apply em_ret_bind|apply em_write_bind]; (eapply em_conseq; [exact OP|]); cbn beta;
    intros ntv t i2 b2 d2 ((-> & L) & -> & -> & ->); (split; [|auto]); (split; [reflexivity|]); exists t; auto.
Qed.
Lemma sem_tuple l : all sem l -> sem (VTuple l).
Proof.
  intros H0 i b d HB HD HH RF. assert (H := fine_all l H0 RF). cbn [ser]. eapply em_bind; [apply em_tuple_open|]. cbn beta.
  intros ntv t i2 b2 d2 ((-> & w & L & ->) & -> & -> & ->).
  apply (em_tuple_block elem l i b H). intros w' ti L' IT. destruct b.
  - cbn [app]. rewrite app_nil_r, app_assoc. apply post_arg; [now apply layout_app|apply a_tuple; [auto|now apply elem_items]|].
    intros IS HI. eapply tuple_no_option; [exact IT|exact IS|]. destruct l; auto.
  - apply (post_plain _ _ _ _ (c_lp :: (w ++ w') ++ ti ++ [c_rp])); [apps|discriminate| |apply no_option_head; discriminate]. apply r_tuple; [now apply layout_app|now apply elem_items].
Qed.
Lemma sem_tuple_struct n l : all sem l -> sem (VTupleStruct n l).
Proof.
  intros H0 i b d HB HD HH RF. assert (H := fine_all l H0 RF). cbn [ser].
  eapply em_bind with (Q1 := fun ntv t i2 b2 d2 => (ntv = b /\ exists tn w, (if b then tn = [] else named n tn) /\ layout w /\ t = tn ++ (if b then [] else [c_lp]) ++ w) /\
     i2 = wider cfg (separate_tuple_members cfg) i /\ b2 = false /\ d2 = 0%nat).
  { unfold tuple_struct_open. apply em_get. intros s _ NT _. rewrite NT. destruct b; cbn [negb].
    - rewrite andb_false_r. eapply puts_bind; [apply puts_validate|]. intros t (-> & _).
      eapply em_conseq; [apply em_tuple_open|]. cbn beta. intros ntv t i2 b2 d2 ((-> & w & L & ->) & -> & -> & ->).
      split; [|auto]. split; [reflexivity|]. exists [], w. auto.
    - rewrite andb_true_r. eapply puts_bind; [apply puts_name|]. intros tn HN.
      eapply em_conseq; [apply em_tuple_open|]. cbn beta. intros ntv t i2 b2 d2 ((-> & w & L & ->) & -> & -> & ->).
      split; [|auto]. split; [reflexivity|]. exists tn, w. auto. }
  cbn beta. intros ntv t i2 b2 d2 ((-> & tn & w & HN & L & ->) & -> & -> & ->).
  apply (em_tuple_block elem l i b H). intros w' ti L' IT. destruct b.
  - subst tn. cbn [app]. rewrite app_nil_r, app_assoc. apply post_arg; [now apply layout_app|apply a_tuple_struct; [auto|now apply elem_items]|].
    intros IS HI. eapply tuple_no_option; [exact IT|exact IS|]. destruct l; auto.
  - apply (post_plain _ _ _ _ (tn ++ c_lp :: (w ++ w') ++ ti ++ [c_rp])); [apps|discriminate| |now apply named_no_option with n]. apply r_tuple_struct; [apply HN|now apply layout_app|now apply elem_items].
Qed.
Lemma sem_tup_variant n k l : all sem l -> sem (VTupVariant n k l).
Proof.
  intros H0 i b d HB HD HH RF. assert (H := fine_all l H0 RF). cbn [ser].
  eapply em_bind with (Q1 := fun ntv t i2 b2 d2 => (ntv = false /\ exists w, valid_identifier k = true /\ layout w /\ t = ident_text k ++ [c_lp] ++ w) /\
     i2 = wider cfg (separate_tuple_members cfg) i /\ b2 = false /\ d2 = 0%nat).
  { unfold tuple_variant_open. eapply em_mod_bind with (i' := i) (b' := false) (d' := 0%nat); [auto|intros s' H1 H2 H3; cbn; auto|].
    eapply puts_bind; [apply puts_validate|]. intros t (-> & _). eapply puts_bind; [apply puts_ident|]. intros tk (-> & V).
    apply em_write_bind. eapply lays_bind; [apply lays_open; exact VC|]. intros w L. apply em_ret. rewrite app_nil_r. split; [|auto]. eauto. }
  cbn beta. intros ntv t i2 b2 d2 ((-> & w & V & L & ->) & -> & -> & ->).
  apply (em_tuple_block elem l i false H). intros w' ti L' IT.
  apply (post_plain _ _ _ _ (ident_text k ++ [] ++ c_lp :: (w ++ w') ++ ti ++ [c_rp])); [apps|auto| |apply no_option_app; [now apply ident_text_no_option|apply lp_not_xid]].
  apply r_tup_variant; [now apply ident_text_name|now apply ident_text_lit|constructor|now apply layout_app|now apply elem_items].
Qed.
Lemma sem_map l : all (fun kv => sem (fst kv) /\ sem (snd kv)) l -> sem (VMap l).
Proof.
  intros H0 i b d HB HD HH RF. assert (H := fine_entries l H0 RF). cbn [ser]. eapply em_bind; [apply em_open|]. cbn beta.
  intros _ t i2 b2 d2 ((w & L & ->) & -> & -> & ->).
  eapply em_ext with (m' := f <~ loop (fun c kv => map_entry cfg c (ser o cfg (fst kv)) (ser o cfg (snd kv))) l true ;; map_close cfg f).
  { intros s. apply sbind_ext; [|auto]. clear. generalize true. induction l as [|[k v] l IH]; intros c s; [reflexivity|].
    cbn [loop fst snd]. apply sbind_ext; auto. }
  apply (em_block cfg VC (fun c kv => map_entry cfg c (ser o cfg (fst kv)) (ser o cfg (snd kv))) (fun b => b) (entry elem elem) i l true wide_map (negb (compact_maps cfg))
    (fun _ => write [c_rc] ;~ drop_compound)); [intros a IN; apply map_steps; now apply (proj1 (all_in _ _) H)|reflexivity|].
  intros w' ti c' L' IT. apply em_write_bind. eapply em_conseq; [apply em_drop|]. cbn beta. intros [] t i2 b2 d2 (-> & -> & -> & ->).
  apply (post_plain _ _ _ _ (c_lc :: (w ++ w') ++ ti ++ [c_rc])); [apps|auto| |apply no_option_head; discriminate]. apply r_map; [now apply layout_app|now apply map_items].
Qed.
(** structs *)
Lemma em_struct_block R l i ntv {Q : unit -> str -> nat -> bool -> nat -> Prop} : all (fun kv => writes R (snd kv)) l ->
  (forall w ti, layout w -> items (entry key R) l ti -> Q tt ((w ++ ti) ++ (if ntv : bool then [] else [c_rp])) i false 0%nat) ->
  em (f <~ (fix go (fs : list (str * val)) (c : bool) : SM bool :=
                  match fs with
                  | [] => sret c
                  | (k, v) :: fs' => c' <~ struct_field cfg c k (ser o cfg v) ;; go fs' c'
                  end) l true ;; struct_close cfg ntv f) (wider cfg (negb (compact_structs cfg)) i) false 0 Q.
Proof.
  intros H HQ.
  eapply em_ext with (m' := f <~ loop (fun c kv => struct_field cfg c (fst kv) (ser o cfg (snd kv))) l true ;; struct_close cfg ntv f).
  { intros s. apply sbind_ext; [|auto]. clear. generalize true. induction l as [|[k v] l IH]; intros c s; [reflexivity|].
    cbn [loop fst snd]. apply sbind_ext; auto. }
  apply (em_block cfg VC (fun c kv => struct_field cfg c (fst kv) (ser o cfg (snd kv))) (fun b => b) (entry key R) i l true wide_struct (negb (compact_structs cfg))
    (fun _ => (if ntv then sret tt else write [c_rp]) ;~ drop_compound)); [intros a IN; apply struct_steps; now apply (proj1 (all_in _ _) H)|reflexivity|].
  intros w ti c' L IT. destruct ntv.
  - apply em_ret_bind. eapply em_conseq; [apply em_drop|]. cbn beta. intros [] t i2 b2 d2 (-> & -> & -> & ->). auto.
  - apply em_write_bind. eapply em_conseq; [apply em_drop|]. cbn beta. intros [] t i2 b2 d2 (-> & -> & -> & ->). apply HQ; auto.
Qed.
Lemma range_kind_named n len : range_kind_of cfg n len = None \/ compact_ranges cfg = true /\ range_named n len = true.
Proof.
  unfold range_kind_of, range_named, ranges. destruct (compact_ranges cfg); [|auto]. cbn [existsb fst snd length].
  destruct (Nat.eqb len 2); [|destruct (Nat.eqb len 1); [|auto]]; cbn [andb orb]; rewrite ?andb_true_r, ?andb_false_r, ?orb_false_r; cbn [orb].
  - destruct (str_eqb n s_Range); [auto|]. destruct (str_eqb n s_RangeInclusive); auto.
  - destruct (str_eqb n s_RangeFrom); [auto|]. destruct (str_eqb n s_RangeTo); [auto|]. destruct (str_eqb n s_RangeToInclusive); auto.
Qed.
(** a range that is not one of numbers: the parenthesis without a name *)
Definition fall_back (fs : list (str * val)) : SM unit :=
  write [c_lp] ;~ open_wide cfg (negb (compact_structs cfg)) (length fs) ;~
  (f <~ (fix go (fs : list (str * val)) (c : bool) : SM bool :=
           match fs with
           | [] => sret c
           | (k, v) :: fs' => c' <~ struct_field cfg c k (ser o cfg v) ;; go fs' c'
           end) fs true ;; struct_close cfg false f).
Definition range_ser rk (fs : list (str * val)) : SM unit :=
  c <~ (fix go (fs : list (str * val)) (c : range_state) : SM range_state :=
          match fs with
          | [] => sret c
          | (k, v) :: fs' => c' <~ range_field cfg rk c k v (ser o cfg v) ;; go fs' c'
          end) fs (RBuf None None) ;;
  range_close cfg rk c.
Lemma as_number_ser v n : as_number v = Some n -> ser_num cfg n = ser o cfg v.
Proof. destruct v; try discriminate; intros H; injection H as <-; reflexivity. Qed.
Lemma as_number_is v : is_number v = match as_number v with Some _ => true | None => false end.
Proof. now destruct v. Qed.
Definition falling a b k (m : SM unit) : SM range_state :=
  write [c_lp] ;~
  (if compact_structs cfg then sret tt else smod (sset_is_empty (Some false)) ;~ start_indent cfg) ;~
  f <~ replay cfg true a ;; f <~ replay cfg f b ;; f <~ struct_field cfg f k m ;; sret (RFall f).
Lemma range_field_fall rk a b k v m : (forall n, as_number v = Some n -> range_accepts rk a b k = false) ->
  range_field cfg rk (RBuf a b) k v m = falling a b k m.
Proof. intros H. unfold range_field, falling. destruct (as_number v) as [n|]; [now rewrite (H n)|reflexivity]. Qed.
Lemma sbind_assoc {A B C} (m : SM A) (f : A -> SM B) (g : B -> SM C) s : sbind (sbind m f) g s = sbind m (fun a => sbind (f a) g) s.
Proof. unfold sbind. now destruct (m s). Qed.
(** the kinds of range *)
Definition rk_name (rk : range_kind) : str :=
  match rk with RKRange => s_Range | RKInclusive => s_RangeInclusive | RKFrom => s_RangeFrom | RKTo => s_RangeTo | RKToInclusive => s_RangeToInclusive end.
Ltac names := repeat (match goal with
  | |- context [str_eqb ?a ?b] => let v := eval vm_compute in (str_eqb a b) in match v with true => idtac | false => idtac end; change (str_eqb a b) with v
  end); cbn [andb orb negb].
Lemma range_shape rk n l : range_kind_of cfg n (length l) = Some rk -> n = rk_name rk /\
  match rk with
  | RKRange | RKInclusive => exists k1 v1 k2 v2, l = [(k1, v1); (k2, v2)] /\
      numeric_range n l = (str_eqb k1 s_start && is_number v1) && (str_eqb k2 s_end && is_number v2)
  | RKFrom => exists k1 v1, l = [(k1, v1)] /\ numeric_range n l = str_eqb k1 s_start && is_number v1
  | RKTo | RKToInclusive => exists k1 v1, l = [(k1, v1)] /\ numeric_range n l = str_eqb k1 s_end && is_number v1
  end.
Proof.
  unfold range_kind_of. destruct (compact_ranges cfg); [|discriminate].
  destruct l as [|[k1 v1] [|[k2 v2] [|p l]]]; cbn [length Nat.eqb]; try discriminate.
  - destruct (str_eqb n s_RangeFrom) eqn:Q1; [|destruct (str_eqb n s_RangeTo) eqn:Q2; [|destruct (str_eqb n s_RangeToInclusive) eqn:Q3; [|discriminate]]];
      intros H; injection H as <-;
      match goal with H : str_eqb n _ = true |- _ => apply str_eqb_eq in H as -> end; (split; [reflexivity|]); exists k1, v1; (split; [reflexivity|]);
      unfold numeric_range, ranges; cbn [existsb forallb map fst snd strs_eqb]; names; rewrite ?andb_true_r, ?andb_false_r, ?orb_false_r; reflexivity.
  - destruct (str_eqb n s_Range) eqn:Q1; [|destruct (str_eqb n s_RangeInclusive) eqn:Q2; [|discriminate]];
      intros H; injection H as <-;
      match goal with H : str_eqb n _ = true |- _ => apply str_eqb_eq in H as -> end; (split; [reflexivity|]); exists k1, v1, k2, v2; (split; [reflexivity|]);
      unfold numeric_range, ranges; cbn [existsb forallb map fst snd strs_eqb]; names; rewrite ?andb_true_r, ?andb_false_r, ?orb_false_r;
      destruct (str_eqb k1 s_start), (str_eqb k2 s_end), (is_number v1), (is_number v2); reflexivity.
Qed.
Lemma numeric_kind n l : compact_ranges cfg = true -> numeric_range n l = true -> range_kind_of cfg n (length l) <> None.
Proof.
  intros CR NU. unfold numeric_range, ranges in NU. apply andb_prop in NU as [NU _]. unfold range_kind_of. rewrite CR.
  cbn [existsb fst snd] in NU. rewrite !orb_true_iff, !andb_true_iff in NU.
  assert (LN : forall ks, map fst l = ks -> length l = length ks) by (intros ks <-; now rewrite map_length).
  destruct NU as [[Q M]|[[Q M]|[[Q M]|[[Q M]|[[Q M]|NU]]]]]; [..|discriminate]; apply TypedMain.strs_eqb_eq, LN in M; cbn in M; rewrite M; cbn [Nat.eqb]; rewrite Q;
    repeat match goal with |- context [if ?c then _ else _] => destruct c end; discriminate.
Qed.
Lemma range_falls rk n fs s : range_kind_of cfg n (length fs) = Some rk -> numeric_range n fs = false -> range_ser rk fs s = fall_back fs s.
Proof.
  intros RK NN. destruct (range_shape _ _ _ RK) as [_ SH].
  assert (OP : forall len s, len <> 0%nat -> (if compact_structs cfg then sret tt else smod (sset_is_empty (Some false)) ;~ start_indent cfg) s =
    open_wide cfg (negb (compact_structs cfg)) len s).
  { intros [|len] s0 NE; [congruence|]. unfold open_wide. now destruct (compact_structs cfg). }
  assert (ONE : forall k1 v1, (forall n, as_number v1 = Some n -> range_accepts rk None None k1 = false) ->
    range_ser rk [(k1, v1)] s = fall_back [(k1, v1)] s).
  { intros k1 v1 A. unfold range_ser, fall_back. rewrite range_field_fall by exact A.
    unfold falling. cbn [replay]. rewrite !sbind_assoc. apply sbind_ext; [reflexivity|]. intros _ s1. rewrite !sbind_assoc.
    apply sbind_ext; [intros s2; now apply OP|]. intros _ s2.
    rewrite !sbind_assoc. unfold sbind at 1. cbn [sret]. rewrite !sbind_assoc. unfold sbind at 1. cbn [sret]. rewrite !sbind_assoc.
    apply sbind_ext; [reflexivity|]. intros f s3. reflexivity. }
  assert (TWO : forall k1 v1 k2 v2, (forall n, as_number v1 = Some n -> range_accepts rk None None k1 = false) \/
      (exists n1, as_number v1 = Some n1 /\ range_accepts rk None None k1 = true /\
        forall n, as_number v2 = Some n -> range_accepts rk (Some (k1, n1)) None k2 = false) ->
    range_ser rk [(k1, v1); (k2, v2)] s = fall_back [(k1, v1); (k2, v2)] s).
  { intros k1 v1 k2 v2 [A|(n1 & A1 & A2 & A3)]; unfold range_ser, fall_back.
    - rewrite range_field_fall by exact A.
      unfold falling. cbn [replay]. rewrite !sbind_assoc. apply sbind_ext; [reflexivity|]. intros _ s1. rewrite !sbind_assoc.
      apply sbind_ext; [intros s2; now apply OP|]. intros _ s2.
      rewrite !sbind_assoc. unfold sbind at 1. cbn [sret]. rewrite !sbind_assoc. unfold sbind at 1. cbn [sret]. rewrite !sbind_assoc.
      apply sbind_ext; [reflexivity|]. intros f s3. unfold sbind at 1. cbn [sret]. rewrite !sbind_assoc. unfold range_field. rewrite !sbind_assoc.
      apply sbind_ext; [reflexivity|]. intros f' s4. reflexivity.
    - unfold range_field at 1. rewrite A1, A2. rewrite sbind_assoc. unfold sbind at 1. cbn [sret]. rewrite range_field_fall by exact A3.
      unfold falling. cbn [replay]. rewrite !sbind_assoc. apply sbind_ext; [reflexivity|]. intros _ s1. rewrite !sbind_assoc.
      apply sbind_ext; [intros s2; now apply OP|]. intros _ s2. rewrite (as_number_ser _ _ A1).
      rewrite !sbind_assoc. apply sbind_ext; [reflexivity|]. intros f s3. rewrite !sbind_assoc. unfold sbind at 1. cbn [sret]. rewrite !sbind_assoc.
      apply sbind_ext; [reflexivity|]. intros f' s4. reflexivity. }
  assert (NUM : forall v n, as_number v = Some n -> is_number v = true) by (intros v m A; now rewrite as_number_is, A).
  assert (TW : (rk = RKRange \/ rk = RKInclusive) -> forall k1 v1 k2 v2,
     (str_eqb k1 s_start && is_number v1) && (str_eqb k2 s_end && is_number v2) = false -> range_ser rk [(k1, v1); (k2, v2)] s = fall_back [(k1, v1); (k2, v2)] s).
  { intros HR k1 v1 k2 v2 NZ. apply TWO. destruct (str_eqb k1 s_start) eqn:Q1; [|left; destruct HR as [-> | ->]; intros m _; unfold range_accepts; now rewrite Q1].
    destruct (as_number v1) as [n1|] eqn:A1; [|left; intros; discriminate]. right. exists n1. split; [reflexivity|].
    rewrite (NUM _ _ A1) in NZ. cbn [andb] in NZ. split; [destruct HR as [-> | ->]; unfold range_accepts; now rewrite Q1|].
    intros m A2. rewrite (NUM _ _ A2), andb_true_r in NZ. destruct HR as [-> | ->]; unfold range_accepts; now rewrite NZ. }
  destruct rk.
  - destruct SH as (k1 & v1 & k2 & v2 & -> & EQ). rewrite EQ in NN. now apply TW; [left|].
  - destruct SH as (k1 & v1 & k2 & v2 & -> & EQ). rewrite EQ in NN. now apply TW; [right|].
  - destruct SH as (k1 & v1 & -> & EQ). rewrite EQ in NN. apply ONE. intros m A. rewrite (NUM _ _ A), andb_true_r in NN. unfold range_accepts. now rewrite NN.
  - destruct SH as (k1 & v1 & -> & EQ). rewrite EQ in NN. apply ONE. intros m A. rewrite (NUM _ _ A), andb_true_r in NN. unfold range_accepts. now rewrite NN.
  - destruct SH as (k1 & v1 & -> & EQ). rewrite EQ in NN. apply ONE. intros m A. rewrite (NUM _ _ A), andb_true_r in NN. unfold range_accepts. now rewrite NN.
Qed.
(** a range of numbers *)
Local Notation fplain := (plain (fun k b => b < 2 ^ f_bits k /\ canon k b = b)).
Lemma em_num v n : widens -> as_number v = Some n -> fplain v -> bound_fine (number_suffixes cfg) v ->
  puts (ser_num cfg n) (fun t => bound v t /\ (leads v -> num_lead t)).
Proof.
  intros WI A P BF i b d. destruct v as [|k z|k b0| | | | | | | | | | | | | | | | | | |]; try discriminate; injection A as <-; cbn [ser_num].
  - destruct (int_supported k) eqn:SU; [|unfold ser_int; rewrite SU; apply em_fail].
    eapply em_emits; [now apply emits_int|]. split; [|auto]. split; [|intros _; apply show_Z_lead].
    apply (bound_text cfg (VInt k z)); auto; [intros ? ? H; injection H as <- <-; exact SU|discriminate].
  - eapply em_emits; [apply emits_float|]. split; [|auto]. split; [|intros L; apply float_lead; [exact P|exact L]].
    apply (bound_text cfg (VFloat k b0)); auto; [discriminate|intros ? ? H; injection H as <- <-; exact P].
Qed.
Lemma num_no_option n t r : num_text n t -> no_option (t ++ r).
Proof.
  intros H. destruct (TypedMain.num_text_word n t H) as [HL|IN].
  - destruct t as [|c t]; [contradiction|]. unfold num_lead, is_digit in HL. apply no_option_head; lia.
  - cbn [In] in IN. repeat destruct IN as [<-|IN]; try contradiction; try (apply no_option_head; discriminate); intros k x [<-|[<-|[]]] EQ; discriminate.
Qed.
Lemma range_no_option v t : range_text v t -> no_option t.
Proof.
  assert (B : forall v t r, bound v t -> no_option (t ++ r)) by (intros v0 t0 r []; eapply num_no_option; eassumption).
  intros []; first [eapply B; eassumption|apply no_option_head; discriminate].
Qed.
Lemma post_range i b d v t t' : t' = t -> range_text v t -> compact_ranges cfg = true -> (b = true -> x_unwrap_variant_newtypes e = true) ->
  post i b d v tt t' i false 0%nat.
Proof.
  intros -> RT CR HB. destruct b.
  - apply (post_arg i d v [] t); [constructor| |intros _ _; eapply range_no_option; exact RT]. rewrite <- (app_nil_r t). apply a_range; auto. repeat constructor.
  - apply (post_plain i false d v t t); [reflexivity|discriminate|now apply r_range|eapply range_no_option; exact RT].
Qed.
Lemma is_number_as v : is_number v = true -> exists n, as_number v = Some n.
Proof. destruct v; try discriminate; cbn; eauto. Qed.
Lemma em_range rk n l i b d : range_kind_of cfg n (length l) = Some rk -> numeric_range n l = true -> all (fun kv => fplain (snd kv)) l -> widens ->
  all (fun kv => bound_fine (number_suffixes cfg) (snd kv)) l /\ match l with [(_, a); _] => leads a | _ => True end ->
  (b = true -> x_unwrap_variant_newtypes e = true) -> compact_ranges cfg = true ->
  em (smod (fun s => sset_isd 0 (sset_nt false s)) ;~ range_ser rk l) i b d (post i b d (VStruct n l)).
Proof.
  intros RK NU PL WI [BF LD] HB CR. destruct (range_shape _ _ _ RK) as [-> SH].
  eapply em_mod_bind with (i' := i) (b' := false) (d' := 0%nat); [auto|intros s' H1 H2 H3; cbn; auto|].
  destruct rk; [destruct SH as (k1 & v1 & k2 & v2 & -> & EQ)|destruct SH as (k1 & v1 & k2 & v2 & -> & EQ)|destruct SH as (k1 & v1 & -> & EQ)..]; rewrite EQ in NU;
    cbn [all fold_right fst snd] in PL, BF; rewrite ?andb_true_iff in NU.
  1-2: destruct NU as [[K1 N1] [K2 N2]]; apply str_eqb_eq in K1 as ->; apply str_eqb_eq in K2 as ->;
    destruct (is_number_as _ N1) as [n1 A1]; destruct (is_number_as _ N2) as [n2 A2]; destruct PL as (P1 & P2 & _); destruct BF as (B1 & B2 & _).
  3-5: destruct NU as [K1 N1]; apply str_eqb_eq in K1 as ->; destruct (is_number_as _ N1) as [n1 A1]; destruct PL as (P1 & _); destruct BF as (B1 & _).
  - apply em_ext with (m' := ser_num cfg n1 ;~ write s_dotdot ;~ ser_num cfg n2 ;~ drop_compound).
    { intros s. unfold range_ser, range_field. rewrite A1, A2. transitivity (range_close cfg RKRange (RBuf (Some (s_start, n1)) (Some (s_end, n2))) s); [reflexivity|].
      cbn [range_close write_buffered]. rewrite sbind_assoc. apply sbind_ext; [reflexivity|]. intros _ s1. rewrite sbind_assoc. reflexivity. }
    eapply puts_bind; [now apply (em_num v1)|]. intros ta (TA & LA). apply em_write_bind. eapply puts_bind; [now apply (em_num v2)|]. intros tb (TB & _).
    eapply em_conseq; [apply em_drop|]. cbn beta. intros [] t i2 b2 d2 (-> & -> & -> & ->).
    eapply post_range; [|apply (rt_range v1 v2 ta tb); auto|auto|auto]. now rewrite app_nil_r.
  - apply em_ext with (m' := ser_num cfg n1 ;~ write s_dotdoteq ;~ ser_num cfg n2 ;~ drop_compound).
    { intros s. unfold range_ser, range_field. rewrite A1, A2. transitivity (range_close cfg RKInclusive (RBuf (Some (s_start, n1)) (Some (s_end, n2))) s); [reflexivity|].
      cbn [range_close write_buffered]. rewrite sbind_assoc. apply sbind_ext; [reflexivity|]. intros _ s1. rewrite sbind_assoc. reflexivity. }
    eapply puts_bind; [now apply (em_num v1)|]. intros ta (TA & LA). apply em_write_bind. eapply puts_bind; [now apply (em_num v2)|]. intros tb (TB & _).
    eapply em_conseq; [apply em_drop|]. cbn beta. intros [] t i2 b2 d2 (-> & -> & -> & ->).
    eapply post_range; [|apply (rt_inclusive v1 v2 ta tb); auto|auto|auto]. now rewrite app_nil_r.
  - apply em_ext with (m' := ser_num cfg n1 ;~ write s_dotdot ;~ drop_compound).
    { intros s. unfold range_ser, range_field. rewrite A1. transitivity (range_close cfg RKFrom (RBuf (Some (s_start, n1)) None) s); [reflexivity|].
      cbn [range_close write_buffered]. rewrite sbind_assoc. reflexivity. }
    eapply puts_bind; [now apply (em_num v1)|]. intros ta (TA & _). apply em_write_bind.
    eapply em_conseq; [apply em_drop|]. cbn beta. intros [] t i2 b2 d2 (-> & -> & -> & ->).
    eapply post_range; [|apply (rt_from v1 ta); auto|auto|auto]. now rewrite app_nil_r.
  - apply em_ext with (m' := write s_dotdot ;~ ser_num cfg n1 ;~ drop_compound).
    { intros s. unfold range_ser, range_field. rewrite A1. transitivity (range_close cfg RKTo (RBuf (Some (s_end, n1)) None) s); [reflexivity|].
      cbn [range_close write_buffered]. rewrite sbind_assoc. reflexivity. }
    apply em_write_bind. eapply puts_bind; [now apply (em_num v1)|]. intros ta (TA & _).
    eapply em_conseq; [apply em_drop|]. cbn beta. intros [] t i2 b2 d2 (-> & -> & -> & ->).
    eapply post_range; [|apply (rt_to v1 ta); auto|auto|auto]. now rewrite app_nil_r.
  - apply em_ext with (m' := write s_dotdoteq ;~ ser_num cfg n1 ;~ drop_compound).
    { intros s. unfold range_ser, range_field. rewrite A1. transitivity (range_close cfg RKToInclusive (RBuf (Some (s_end, n1)) None) s); [reflexivity|].
      cbn [range_close write_buffered]. rewrite sbind_assoc. reflexivity. }
    apply em_write_bind. eapply puts_bind; [now apply (em_num v1)|]. intros ta (TA & _).
    eapply em_conseq; [apply em_drop|]. cbn beta. intros [] t i2 b2 d2 (-> & -> & -> & ->).
    eapply post_range; [|apply (rt_to_inclusive v1 ta); auto|auto|auto]. now rewrite app_nil_r.
Qed.
Lemma sem_struct n l : all (fun kv => sem (snd kv)) l -> all (fun kv => plain (fun k b => b < 2 ^ f_bits k /\ canon k b = b) (snd kv)) l -> sem (VStruct n l).
Proof.
  intros H0 PL i b d HB HD HH RF. cbn [ser].
  destruct (range_kind_of cfg n (length l)) as [rk|] eqn:RK.
  { eapply em_ext with (m' := smod (fun s => sset_isd 0 (sset_nt false s)) ;~ range_ser rk l); [reflexivity|].
    assert (CR : compact_ranges cfg = true /\ range_named n (length l) = true) by (destruct (range_kind_named n (length l)); [congruence|assumption]).
    destruct CR as [CR NM]. assert (RFN := RF CR). cbn [range_fine] in RFN. destruct (numeric_range n l) eqn:NU.
    - destruct RFN as [WI RFN]. apply (em_range rk n l i b d RK NU PL WI RFN HB CR).
    - destruct RFN as [RN RL]. destruct (RN NM) as [XN ->].
      assert (H : all (fun kv => writes elem (snd kv)) l).
      { rewrite all_in in *. intros a IN. apply sem_writes. split; [auto|]. intros _. auto. }
      eapply em_mod_bind with (i' := i) (b' := false) (d' := 0%nat); [auto|intros s' H1 H2 H3; cbn; auto|].
      eapply em_ext; [intros s; exact (range_falls rk n l s RK NU)|]. unfold fall_back. apply em_write_bind.
      eapply lays_bind; [apply lays_open; exact VC|]. intros w L. apply (em_struct_block elem l i false H). intros w' ti L' IT.
      apply (post_plain _ _ _ _ ([] ++ c_lp :: (w ++ w') ++ ti ++ [c_rp])); [apps|discriminate| |apply no_option_head; discriminate].
      apply (r_struct e sf n l l); [now apply nm_none|now apply layout_app|reflexivity|now apply field_items]. }
  assert (H : all (fun kv => writes elem (snd kv)) l).
  { rewrite all_in in *. intros a IN. apply sem_writes. split; [auto|]. intros CR. assert (R := RF CR). cbn [range_fine] in R.
    destruct (numeric_range n l) eqn:NU.
    - exfalso. exact (numeric_kind n l CR NU RK).
    - destruct R as [_ R]. rewrite all_in in R. auto. }
  eapply em_bind with (Q1 := fun ntv t i2 b2 d2 => (ntv = b /\ exists tn w, (if b then tn = [] else named n tn) /\ layout w /\ t = tn ++ (if b then [] else [c_lp]) ++ w) /\
     i2 = wider cfg (negb (compact_structs cfg)) i /\ b2 = false /\ d2 = 0%nat).
  { unfold struct_open. apply em_get. intros s _ NT _. rewrite NT.
    eapply em_mod_bind with (i' := i) (b' := false) (d' := 0%nat); [auto|intros s' H1 H2 H3; cbn; auto|].
    destruct b.
    - eapply puts_bind; [apply puts_validate|]. intros t (-> & _).
      eapply lays_bind; [apply lays_open; exact VC|]. intros w L. apply em_ret. rewrite app_nil_r. split; [|auto].
      split; [reflexivity|]. exists [], w. auto.
    - eapply em_bind with (Q1 := fun _ t i2 b2 d2 => (exists tn, named n tn /\ t = tn ++ [c_lp]) /\ i2 = i /\ b2 = false /\ d2 = 0%nat).
      { eapply puts_bind; [apply puts_name|]. intros tn HN. apply em_write. split; [|auto]. eauto. }
      cbn beta. intros _ t i2 b2 d2 ((tn & HN & ->) & -> & -> & ->).
      eapply lays_bind; [apply lays_open; exact VC|]. intros w L. apply em_ret. rewrite app_nil_r. split; [|auto].
      split; [reflexivity|]. exists tn, w. rewrite <- app_assoc. auto. }
  cbn beta. intros ntv t i2 b2 d2 ((-> & tn & w & HN & L & ->) & -> & -> & ->).
  apply (em_struct_block elem l i b H). intros w' ti L' IT. destruct b.
  - subst tn. cbn [app]. rewrite app_nil_r, app_assoc. apply post_arg; [now apply layout_app|apply (a_struct e sf rep n l l); [auto|reflexivity|now apply field_items]|].
    intros _ _. now apply struct_no_option with l.
  - apply (post_plain _ _ _ _ (tn ++ c_lp :: (w ++ w') ++ ti ++ [c_rp])); [apps|discriminate| |now apply named_no_option with n].
    apply (r_struct e sf n l l); [apply HN|now apply layout_app|reflexivity|now apply field_items].
Qed.
Lemma sem_struct_variant n k l : all (fun kv => sem (snd kv)) l -> sem (VStructVariant n k l).
Proof.
  intros H0 i b d HB HD HH RF. assert (H := fine_fields l H0 RF). cbn [ser].
  eapply em_bind with (Q1 := fun ntv t i2 b2 d2 => (ntv = false /\ exists w, valid_identifier k = true /\ layout w /\ t = ident_text k ++ [c_lp] ++ w) /\
     i2 = wider cfg (negb (compact_structs cfg)) i /\ b2 = false /\ d2 = 0%nat).
  { unfold struct_variant_open. eapply em_mod_bind with (i' := i) (b' := false) (d' := 0%nat); [auto|intros s' H1 H2 H3; cbn; auto|].
    eapply puts_bind; [apply puts_validate|]. intros t (-> & _). eapply puts_bind; [apply puts_ident|]. intros tk (-> & V).
    apply em_write_bind. eapply lays_bind; [apply lays_open; exact VC|]. intros w L. apply em_ret. rewrite app_nil_r. split; [|auto]. eauto. }
  cbn beta. intros ntv t i2 b2 d2 ((-> & w & V & L & ->) & -> & -> & ->).
  apply (em_struct_block elem l i false H). intros w' ti L' IT.
  apply (post_plain _ _ _ _ (ident_text k ++ [] ++ c_lp :: (w ++ w') ++ ti ++ [c_rp])); [apps|auto| |apply no_option_app; [now apply ident_text_no_option|apply lp_not_xid]].
  apply (r_struct_variant e sf n k l l); [now apply ident_text_name|now apply ident_text_lit|constructor|now apply layout_app|reflexivity|now apply field_items].
Qed.

(** ** Every value *)
Lemma all_imp {A} (P Q : A -> Prop) l : (forall a, In a l -> P a -> Q a) -> all P l -> all Q l.
Proof. rewrite !all_in. intros H HP a IN. apply H; auto. Qed.
Lemma plain_mono (f g : fk -> N -> Prop) : (forall k b, f k b -> g k b) -> forall v, plain f v -> plain g v.
Proof.
  intros H v. induction v as [v F|v IH|n v IH|l IH|l IH|n l IH|l IH|n l IH|n k v IH|n k l IH|n k l IH] using val_ind'; cbn [plain]; auto;
    try (rewrite !all_in in *; intros P a IN; apply IH; auto; fail).
  - destruct v; cbn; auto; contradiction.
  - rewrite !all_in in *. intros P a IN. destruct (IH a IN), (P a IN). auto.
Qed.
Theorem ser_sem (fok : fk -> N -> Prop) v : (forall k b, fok k b -> b < 2 ^ f_bits k /\ canon k b = b) ->
  plain fok v -> clash e v = false -> sem v.
Proof.
  intros HF. induction v as [v F|v IH|n v IH|l IH|l IH|n l IH|l IH|n l IH|n k v IH|n k l IH|n k l IH] using val_ind'; intros P C; cbn [plain clash] in P, C.
  - now apply (sem_flat fok).
  - apply sem_some. auto.
  - apply sem_newtype. auto.
  - apply sem_seq. rewrite all_in in *. intros a IN. apply IH; auto. now apply (any_false _ l).
  - apply sem_tuple. rewrite all_in in *. intros a IN. apply IH; auto. now apply (any_false _ l).
  - apply sem_tuple_struct. rewrite all_in in *. intros a IN. apply IH; auto. now apply (any_false _ l).
  - apply sem_map. rewrite all_in in *. intros a IN. assert (CA := any_false _ l C a IN). cbn beta in CA. apply orb_false_elim in CA as [C1 C2].
    destruct (IH a IN), (P a IN). auto.
  - apply sem_struct; rewrite all_in in *; intros a IN; [|apply (plain_mono fok); auto]. apply IH; auto. now apply (any_false (fun kv => clash e (snd kv)) l).
  - apply orb_false_elim in C as [C1 C2]. apply sem_new_variant; [auto|]. intros U IS. now rewrite U, IS in C1.
  - apply sem_tup_variant. rewrite all_in in *. intros a IN. apply IH; auto. now apply (any_false _ l).
  - apply sem_struct_variant. rewrite all_in in *. intros a IN. apply IH; auto. now apply (any_false (fun kv => clash e (snd kv)) l).
Qed.
(** ** Documents *)
Theorem to_string_repr (fok : fk -> N -> Prop) v text : (forall k b, fok k b -> b < 2 ^ f_bits k /\ canon k b = b) ->
  plain fok v -> clash e v = false -> fine false v -> to_string o cfg v = inl text ->
  exists a x t, text = a ++ t /\ attrs_text a x /\ exts_or x (o_exts o) = e /\ rep v t.
Proof.
  intros HF P C RF TS. destruct (emits_new o cfg VC) as (a & x & EA & HA & EX).
  unfold to_string, to_writer in TS. unfold sbind in TS. rewrite EA in TS by reflexivity.
  assert (S := sem_elem v 0 (conj (ser_sem fok v HF P C) RF)). specialize (S (sset_out (w_out (ser_init o cfg None) ++ a) (ser_init o cfg None)) eq_refl eq_refl eq_refl eq_refl).
  destruct (ser o cfg v _) as [u s'| |]; [|discriminate|contradiction]. destruct S as (t & OUT & _ & (HE & _) & _).
  injection TS as <-. exists a, x, t. rewrite OUT. auto.
Qed.
End Config.
End WithEnv.
