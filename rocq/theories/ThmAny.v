(** C14, C15: what is written for a ron::Value and read back as one, where
    unwrap_variant_newtypes is off.  The theorems are in ThmUnwrap.v. *)
From Coq Require Import String Ascii NArith ZArith Lia Bool List Permutation.
From Coq Require Import ZifyBool ZifyNat ZifyN.
From Verif Require Import Base Facts Value Data Parse De Span Ser Wp EnvOk Layout Lit Attr ShowFacts LexSafe LexWs LexRead DocSafe DocRead SerLex LexDoc Typing ValueFacts Repr ReprFacts TypedRead TypedMain VRepr AnyRead AnyMain RangeSpec SerNum SerWp SerRepr SerOk ThmTyped Toy.
Import ListNotations.
Open Scope N_scope.
Open Scope list_scope.
Open Scope m_scope.

Section ValueInd.
Variable P : value -> Prop.
Definition flat_value (x : value) : Prop := match x with XMap _ | XSome _ | XSeq _ => False | _ => True end.
Hypothesis H_flat : forall x, flat_value x -> P x.
Hypothesis H_some : forall x, P x -> P (XSome x).
Hypothesis H_seq : forall l, all P l -> P (XSeq l).
Hypothesis H_map : forall m, all (fun kv => P (fst kv) /\ P (snd kv)) m -> P (XMap m).
Fixpoint value_ind' (x : value) : P x :=
  match x with
  | XSome x => H_some x (value_ind' x)
  | XSeq l => H_seq l ((fix go (l : list value) : all P l :=
      match l with [] => Logic.I | v :: l' => conj (value_ind' v) (go l') end) l)
  | XMap m => H_map m ((fix gom (l : list (value * value)) : all (fun kv => P (fst kv) /\ P (snd kv)) l :=
      match l with [] => Logic.I | v :: l' => conj (conj (value_ind' (fst v)) (value_ind' (snd v))) (gom l') end) m)
  | x => H_flat x Logic.I
  end.
End ValueInd.

(** A Value: numbers, strings and so on in their ranges, and maps sorted by key,
    without duplicates, as a BTreeMap is. *)
Section WithEnv.
Context {E : Env} {X : XidOk E} {FO : FloatOk E}.

Inductive proper : value -> Prop :=
  | pr_flat x : flat_value x -> proper x
  | pr_some x : proper x -> proper (XSome x)
  | pr_seq l : Forall proper l -> proper (XSeq l)
  | pr_map m : Forall (fun kv => proper (fst kv) /\ proper (snd kv)) m -> sorted m -> proper (XMap m).
Definition a_value (x : value) : Prop := any_ok float_val x /\ proper x.

Lemma any_ok_wf x : any_ok float_val x -> wf_value x.
Proof.
  induction x as [x F|x IH|l IH|m IH] using value_ind'; intros H; inversion H; subst; try contradiction; auto; try exact Logic.I.
  - cbn [wf_value]. destruct n as [k z|k b]; [exact Logic.I|]. match goal with H : Typing.num_ok _ _ |- _ => apply H end.
  - apply wf_seq. rewrite all_in in IH. rewrite Forall_forall in *. auto.
  - apply wf_map. rewrite all_in in IH. rewrite Forall_forall in *. intros kv IN. destruct (IH kv IN) as [I1 I2]. split; [apply I1|apply I2]; apply H1; assumption.
Qed.
Lemma proper_norm x : wf_value x -> proper x -> norm x = x.
Proof.
  induction x as [x F|x IH|l IH|m IH] using value_ind'; intros W H.
  - now destruct x.
  - inversion H; subst; [contradiction|]. cbn [norm]. f_equal. now apply IH.
  - inversion H; subst; [contradiction|]. cbn [norm]. f_equal. apply wf_seq in W. rewrite all_in in IH.
    rewrite Forall_forall in *. transitivity (map (fun x => x) l); [|apply map_id]. apply map_ext_in. auto.
  - inversion H as [| | |? FP SM]; subst; [contradiction|]. cbn [norm]. f_equal. apply wf_map in W. rewrite all_in in IH.
    replace (map (fun kv => (norm (fst kv), norm (snd kv))) m) with m; [apply map_of_list_id; now split|].
    rewrite Forall_forall in *. transitivity (map (fun x : value * value => x) m); [symmetry; apply map_id|]. apply map_ext_in. intros [k v] IN.
    destruct (IH _ IN) as [I1 I2], (W _ IN) as [W1 W2], (FP _ IN) as [P1 P2]. cbn in *. now rewrite I1, I2.
Qed.

(** ** Reading *)
Lemma vrepr_start x t r : vrepr x t -> value_start (t ++ r).
Proof.
  intros H. assert (O := vrepr_opens x t r H). split; [now apply opens_solid|].
  destruct (t ++ r) as [|c q]; [exact Logic.I|]. destruct O as [_ O]. intros ->. apply O. cbn. tauto.
Qed.
Theorem any_document o x w0 at0 e t w1 :
  layout w0 -> attrs_text at0 e -> x_unwrap_variant_newtypes (exts_or e (o_exts o)) = false ->
  vrepr x t -> final_layout w1 -> room (vneed x) (o_limit o) ->
  options_from_str o any_value (w0 ++ at0 ++ t ++ w1) = RValue x.
Proof.
  intros L HA UV HV FL RM. eapply document_reads_final; [exact L|exact HA|now apply vrepr_start with x|].
  intros T s J Hs He Hn Hl _. unfold any_value. eapply wp_bind_ok; [reflexivity|].
  replace (2 * length (rest s) + 3)%nat with (S (2 * length (rest s) + 2)) by lia.
  destruct (any_ready _ UV x t HV (2 * length (rest s) + 2)%nat (vneed x)) as [_ TW]; [rewrite Hs, app_length; unfold str, char in *; lia|lia|].
  eapply wp_conseq; [apply (TW T s w1 final_layout); auto; [now left|now rewrite Hl]| |auto]. cbn beta. tauto.
Qed.
Lemma bind_value {A B} o (m : M A) (f : A -> B) text a : options_from_str o m text = RValue a ->
  options_from_str o (x <- m ;; ret (f x)) text = RValue (f a).
Proof.
  unfold options_from_str, spanned, from_str, document. unfold bind. destruct (parser_new (init_state text)) as [u s| | |]; try discriminate.
  cbn [modify]. destruct (m _) as [a' s'| | |]; try discriminate. cbn [ret]. destruct (de_end s') as [u' s''| | |]; try discriminate.
  intros [= ->]. reflexivity.
  all: cbn; now destruct (span_error text _).
Qed.
Theorem value_document tenv f o x w0 at0 e t w1 :
  layout w0 -> attrs_text at0 e -> x_unwrap_variant_newtypes (exts_or e (o_exts o)) = false ->
  vrepr x t -> final_layout w1 -> room (vneed x) (o_limit o) ->
  options_from_str o (de_ty tenv (S f) TAny) (w0 ++ at0 ++ t ++ w1) = RValue (embed (norm x)).
Proof.
  intros L HA UV HV FL RM. exact (bind_value o any_value (fun x => embed (norm x)) _ x (any_document o x w0 at0 e t w1 L HA UV HV FL RM)).
Qed.

(** ** Writing *)

(** the number that comes back for a number written without a suffix *)
Inductive read_back : num -> num -> Prop :=
  | rb_int k k' z : least_kind (z <? 0)%Z z = Some k' -> read_back (NInt k z) (NInt k' z)
  | rb_finite k b b' : f_finite k b -> f_read F64 (float_text k b) = Some b' -> read_back (NFloat k b) (least_float b')
  | rb_inf k : read_back (NFloat k (f_inf k)) (NFloat F32 (f_inf F32))
  | rb_nan k : read_back (NFloat k (f_nan k)) (NFloat F32 (f_nan F32))
  | rb_minf k : read_back (NFloat k (f_inf k + f_signbit k)) (least_float (f_inf F64 + f_signbit F64))
  | rb_mnan k : read_back (NFloat k (f_nan k + f_signbit k)) (least_float (f_nan F64 + f_signbit F64)).
(** the same value with other numbers *)
Section Renumber.
Variable R : num -> num -> Prop.
Inductive renumbered : value -> value -> Prop :=
  | rn_num n n' : R n n' -> renumbered (XNum n) (XNum n')
  | rn_flat x : flat_value x -> (forall n, x <> XNum n) -> renumbered x x
  | rn_some x x' : renumbered x x' -> renumbered (XSome x) (XSome x')
  | rn_seq l l' : Forall2 renumbered l l' -> renumbered (XSeq l) (XSeq l')
  | rn_map m m' : Forall2 (fun kv kv' => renumbered (fst kv) (fst kv') /\ renumbered (snd kv) (snd kv')) m m' ->
      renumbered (XMap m) (XMap m').
End Renumber.

(** every Some satisfies [P] *)
Fixpoint somes (P : Prop) (x : value) : Prop :=
  match x with
  | XSome x => P /\ somes P x
  | XSeq l => all (somes P) l
  | XMap m => all (fun kv => somes P (fst kv) /\ somes P (snd kv)) m
  | _ => True
  end.

Section Write.
Variables (o : opts) (cfg : option pconf).
Local Notation e := (extensions o cfg).

Ltac no_range_here := try match goal with H : range_text _ _ |- _ => solve [inversion H] end.
Lemma num_suffixed n t : number_suffixes cfg = true -> Typing.num_ok float_val n ->
  repr e (sf cfg) (embed_num n) t -> num_text n t.
Proof.
  intros SX OK H. destruct n as [k z|k b]; cbn [embed_num] in H; inversion H; subst; no_range_here.
  - match goal with H : sf _ _ |- _ => destruct H; congruence end.
  - now apply n_int_suffix.
  - match goal with H : sf _ _ |- _ => destruct H as (-> & B & ->) end. rewrite SX in *.
    destruct (float_cases k b OK) as [(_ & PT & RD)|(f & SP & ->)].
    + now apply n_float_suffix.
    + now apply n_special_suffix.
Qed.
Lemma num_unsuffixed n t : number_suffixes cfg = false -> Typing.num_ok float_val n ->
  (forall b, f_finite F32 b -> exists b', f_read F64 (float_text F32 b) = Some b') ->
  repr e (sf cfg) (embed_num n) t -> exists n', read_back n n' /\ num_text n' t.
Proof.
  intros SX OK F32R H. destruct n as [k z|k b]; cbn [embed_num] in H; inversion H; subst; no_range_here.
  - match goal with H : sf _ _ |- _ => destruct H as [_ ->] end.
    destruct (least_kind_some k z) as [k' LK]; [assumption|exact OK|]. exists (NInt k' z). split; [now constructor|].
    destruct z as [|p|p]; cbn [show_Z].
    + apply (n_int [] false [] 10 [48] 0%Z k'); [constructor|constructor|apply (show_N_int 0)|exact LK].
    + apply (n_int [] false [] 10 (show_N (Npos p)) (Zpos p) k'); [constructor|constructor|apply (show_N_int (Npos p))|exact LK].
    + apply (n_int [c_minus] true [] 10 (show_N (Npos p)) (Zpos p) k'); [constructor|constructor|apply (show_N_int (Npos p))|exact LK].
  - match goal with H : sf _ _ |- _ => destruct H; congruence end.
  - match goal with H : sf _ _ |- _ => destruct H as (-> & B & ->) end. rewrite SX in *. rewrite app_nil_r.
    destruct (float_cases k b OK) as [(FF & PT & RD)|(f & SP & ->)].
    + assert (exists b', f_read F64 (float_text k b) = Some b') as [b' R64] by (destruct k; eauto).
      exists (least_float b'). split; [now constructor|now apply n_float].
    + remember (float_text k (f k)) as tt eqn:TT. clear TT. destruct SP; eexists;
      [split; [apply rb_inf|apply n_inf]|split; [apply rb_minf|apply n_minf]|split; [apply rb_nan|apply n_nan]|split; [apply rb_mnan|apply n_mnan]].
Qed.

(** the texts of a Value with its numbers read in some way *)
Lemma repr_any (R : num -> num -> Prop) x : x_unwrap_variant_newtypes e = false ->
  somes (x_implicit_some e = false) x -> any_ok float_val x ->
  (forall n t, Typing.num_ok float_val n -> repr e (sf cfg) (embed_num n) t -> exists n', R n n' /\ num_text n' t) ->
  forall t, repr e (sf cfg) (embed x) t -> exists x', renumbered R x x' /\ vrepr x' t.
Proof.
  intros UV SM OK HN.
  induction x as [x F|x IH|l IH|m IH] using value_ind'; intros t H.
  - destruct x; try contradiction; cbn [embed] in H; try (inversion H; subst; no_range_here; eexists; (split; [apply rn_flat; [exact Logic.I|discriminate]|constructor; assumption])).
    inversion OK; subst. destruct (HN n t) as (n' & ? & ?); [assumption|exact H|]. exists (XNum n'). split; now constructor.
  - cbn [embed] in H. destruct SM as [IM SM]. inversion OK; subst. inversion H; subst; no_range_here; [|congruence].
    match goal with H : arg _ _ _ _ _ |- _ => inversion H; subst; try congruence; no_range_here end.
    match goal with H : repr _ _ (embed x) _ |- _ => destruct (IH SM ltac:(assumption) _ H) as (x' & ? & ?) end.
    exists (XSome x'). split; [now constructor|]. rewrite <- app_assoc. now apply v_some.
  - cbn [embed] in H. inversion OK as [| | | | | | | |? FA|]; subst. inversion H as [| | | | | | | | | | | | | | | |? t' w LW IT| | | | | | | |]; subst; no_range_here. clear H OK.
    cbn [somes] in SM. assert (L : exists l', Forall2 (renumbered R) l l' /\ items vrepr l' t').
    { remember (map embed l) as l0 eqn:HL. revert l HL IH FA SM. induction IT as [|v t w0 RV W0|v t w0 w1 l0 ts RV W0 W1 IT IHI]; intros l HL IH FA SM.
      - destruct l; [|discriminate]. exists []. split; constructor.
      - destruct l as [|x [|? ?]]; try discriminate. injection HL as ->. inversion FA; subst. destruct IH as [I1 _], SM as [S1 _].
        destruct (I1 S1 ltac:(assumption) _ RV) as (x' & ? & ?). exists [x']. split; [repeat constructor; assumption|now constructor].
      - destruct l as [|x l]; try discriminate. injection HL as -> ->. inversion FA; subst. destruct IH as [I1 I2], SM as [S1 S2].
        destruct (I1 S1 ltac:(assumption) _ RV) as (x' & ? & ?). destruct (IHI l eq_refl I2 ltac:(assumption) S2) as (l' & ? & ?).
        exists (x' :: l'). split; constructor; assumption. }
    destruct L as (l' & ? & ?). exists (XSeq l'). split; [now constructor|now apply v_seq].
  - cbn [embed] in H. inversion OK as [| |? FA| | | | | | |]; subst. inversion H as [| | | | | | | | | | | | | | | | | | |? t' w LW IT| | | | |]; subst; no_range_here. clear H OK.
    cbn [somes] in SM.
    assert (L : exists m', Forall2 (fun kv kv' => renumbered R (fst kv) (fst kv') /\ renumbered R (snd kv) (snd kv')) m m' /\ items (entry vrepr vrepr) m' t').
    { set (em := fun kv : value * value => (embed (fst kv), embed (snd kv))) in *.
      assert (EN : forall x t, (somes (x_implicit_some e = false) (fst x) -> any_ok float_val (fst x) -> forall t, repr e (sf cfg) (embed (fst x)) t -> exists x', renumbered R (fst x) x' /\ vrepr x' t) /\
         (somes (x_implicit_some e = false) (snd x) -> any_ok float_val (snd x) -> forall t, repr e (sf cfg) (embed (snd x)) t -> exists x', renumbered R (snd x) x' /\ vrepr x' t) ->
         somes (x_implicit_some e = false) (fst x) /\ somes (x_implicit_some e = false) (snd x) -> any_ok float_val (fst x) /\ any_ok float_val (snd x) ->
         entry (repr e (sf cfg)) (repr e (sf cfg)) (em x) t -> exists x', (renumbered R (fst x) (fst x') /\ renumbered R (snd x) (snd x')) /\ entry vrepr vrepr x' t).
      { intros [k v] t [I1 I2] [S1 S2] [O1 O2] EE. cbn [fst snd em] in *. unfold em in EE. inversion EE; subst.
        destruct (I1 S1 O1 _ ltac:(eassumption)) as (k' & ? & ?). destruct (I2 S2 O2 _ ltac:(eassumption)) as (v' & ? & ?).
        exists (k', v'). split; [now split|now constructor]. }
      remember (map em m) as l0 eqn:HL. revert m HL IH FA SM. induction IT as [|v t w0 RV W0|v t w0 w1 l0 ts RV W0 W1 IT IHI]; intros l HL IH FA SM.
      - destruct l; [|discriminate]. exists []. split; constructor.
      - destruct l as [|x [|? ?]]; try discriminate. injection HL as ->. inversion FA; subst. destruct IH as [I1 _], SM as [S1 _].
        destruct (EN _ _ I1 S1 ltac:(assumption) RV) as (x' & ? & ?). exists [x']. split; [repeat constructor; try assumption; tauto|now constructor].
      - destruct l as [|x l]; try discriminate. injection HL as -> ->. inversion FA; subst. destruct IH as [I1 I2], SM as [S1 S2].
        destruct (EN _ _ I1 S1 ltac:(assumption) RV) as (x' & ? & ?). destruct (IHI l eq_refl I2 ltac:(assumption) S2) as (l' & ? & ?).
        exists (x' :: l'). split; constructor; assumption. }
    destruct L as (l' & ? & ?). exists (XMap l'). split; [now constructor|now apply v_map].
Qed.
End Write.

Lemma renumbered_eq x : forall x', renumbered eq x x' -> x = x'.
Proof.
  induction x as [x F|x IH|l IH|m IH] using value_ind'; intros x' H.
  - inversion H; subst; try contradiction; congruence.
  - inversion H; subst; [contradiction|]. f_equal. auto.
  - inversion H as [| | |? ? F2|]; subst; [contradiction|]. f_equal. clear H. induction F2; [reflexivity|]. destruct IH. f_equal; auto.
  - inversion H as [| | | |? ? F2]; subst; [contradiction|]. f_equal. clear H. induction F2 as [|[] [] ? ? [? ?]]; [reflexivity|]. destruct IH as [[I1 I2] ?]. cbn [fst snd] in *. f_equal; [f_equal|]; auto.
Qed.
Lemma renumbered_need R x : forall x', renumbered R x x' -> vneed x' = vneed x.
Proof.
  induction x as [x F|x IH|l IH|m IH] using value_ind'; intros x' H.
  - inversion H; subst; try contradiction; reflexivity.
  - inversion H; subst; [contradiction|]. cbn [vneed]. f_equal. auto.
  - inversion H as [| | |? ? F2|]; subst; [contradiction|]. cbn [vneed]. f_equal. clear H. induction F2; [reflexivity|]. destruct IH. cbn [map max_list]. f_equal; auto.
  - inversion H as [| | | |? ? F2]; subst; [contradiction|]. cbn [vneed]. f_equal. clear H. induction F2 as [|[] [] ? ? [? ?]]; [reflexivity|]. destruct IH as [[I1 I2] ?]. cbn [fst snd map max_list] in *. f_equal; [f_equal|]; auto.
Qed.
Lemma embed_plain x : any_ok float_val x -> plain float_val (embed x).
Proof.
  induction x as [x F|x IH|l IH|m IH] using value_ind'; intros H; inversion H; subst; try contradiction; cbn [embed plain]; auto.
  - destruct n; cbn; auto.
  - apply all_in. intros v IN. apply in_map_iff in IN as (x & <- & IN). rewrite all_in in IH. rewrite Forall_forall in *. auto.
  - apply all_in. intros v IN. apply in_map_iff in IN as (x & <- & IN). rewrite all_in in IH. rewrite Forall_forall in *.
    destruct (IH x IN), (H1 x IN). cbn. auto.
Qed.
Lemma embed_clash e x : clash e (embed x) = false.
Proof.
  induction x as [x F|x IH|l IH|m IH] using value_ind'; cbn [embed clash].
  - destruct x as [| | |[]| | | | | |]; try contradiction; reflexivity.
  - exact IH.
  - induction l as [|x l IHl]; [reflexivity|]. destruct IH as [I1 I2]. cbn [map any fold_right]. rewrite I1. apply IHl, I2.
  - induction m as [|x l IHl]; [reflexivity|]. destruct IH as [[I1 I1'] I2]. cbn [map any fold_right fst snd]. rewrite I1, I1'. apply IHl, I2.
Qed.

Lemma embed_ranges e s x : forall b, range_fine e s b (embed x).
Proof.
  induction x as [x F|x IH|l IH|m IH] using value_ind'; intros b; cbn [embed range_fine].
  - destruct x as [| | |[]| | | | | |]; try contradiction; exact Logic.I.
  - apply IH.
  - induction l as [|x l IHl]; [exact Logic.I|]. destruct IH as [I1 I2]. split; [apply I1|apply IHl, I2].
  - induction m as [|x l IHl]; [exact Logic.I|]. destruct IH as [[I1 I1'] I2]. split; [split; [apply I1|apply I1']|apply IHl, I2].
Qed.

Lemma value_written (R : num -> num -> Prop) o cfg x text : valid_config cfg ->
  x_unwrap_variant_newtypes (extensions o cfg) = false -> somes (x_implicit_some (extensions o cfg) = false) x ->
  any_ok float_val x -> room (vneed x) (o_limit o) ->
  (forall n t, Typing.num_ok float_val n -> repr (extensions o cfg) (sf cfg) (embed_num n) t -> exists n', R n n' /\ num_text n' t) ->
  to_string o cfg (embed x) = inl text ->
  exists x', renumbered R x x' /\ options_from_str o any_value text = RValue x'.
Proof.
  intros VC UV SM OK RM HN TS.
  destruct (to_string_repr o cfg VC float_val (embed x) text) as (a & y & t & -> & HA & EX & RP); [intros k b H; exact H|now apply embed_plain|apply embed_clash|intros _; apply embed_ranges|exact TS|].
  destruct (repr_any o cfg R x UV SM OK HN t RP) as (x' & RN & HV).
  exists x'. split; [exact RN|]. rewrite <- (app_nil_r t). apply (any_document o x' [] a y t []); auto.
  - constructor.
  - now rewrite EX.
  - left. constructor.
  - now rewrite (renumbered_need R x x').
Qed.
(** the number a [num] denotes, floats as bits of an f64 *)
Definition denotes (n : num) : Z + N :=
  match n with NInt _ z => inl z | NFloat F32 b => inr (f_widen b) | NFloat F64 b => inr b end.
(** its type is the smallest that holds it *)
Definition shortest (n : num) : Prop :=
  match n with
  | NInt k z => in_range k z = true /\ int_supported k = true /\ ik_signed k = (z <? 0)%Z /\
      forall k', int_supported k' = true -> ik_signed k' = (z <? 0)%Z -> in_range k' z = true -> (ik_bits k <= ik_bits k')%Z
  | NFloat F32 _ => True
  | NFloat F64 b => forall b32, f_widen b32 <> b \/ f_narrow b <> b32
  end.
Lemma least_float_denotes b : denotes (least_float b) = inr b /\ shortest (least_float b).
Proof.
  unfold least_float. destruct (N.eqb_spec b (f_widen (f_narrow b))) as [EQ|NE]; cbn.
  - split; [congruence|exact Logic.I].
  - split; [reflexivity|]. intros b32. destruct (N.eq_dec (f_narrow b) b32) as [<-|]; [left; congruence|now right].
Qed.
Lemma least_kind_shortest z k : least_kind (z <? 0)%Z z = Some k -> shortest (NInt k z).
Proof.
  unfold least_kind. intros F. assert (FI := find_some _ _ F). destruct FI as [IN RG]. unfold int_kinds in IN. apply filter_In in IN as [IN SU].
  cbn [shortest]. split; [exact RG|]. split; [exact SU|]. split.
  - destruct (z <? 0)%Z; cbn in IN; repeat (destruct IN as [<-|IN]; [reflexivity|]); contradiction.
  - intros k' SU' SG' RG'. clear IN. unfold int_kinds in F. destruct (z <? 0)%Z; destruct k'; try discriminate SG';
      unfold int_supported in *; cbn [filter is_128 negb] in F; rewrite ?orb_true_r, ?SU' in F; cbn [find filter is_128 negb] in F;
      repeat match type of F with
        | context [if ?c then _ else _] => destruct c eqn:?; cbn [find] in F
        end; try congruence; injection F as <-; cbn; try lia; try congruence.
Qed.
(** C15: the same number, in the smallest type, for all but the finite f32s *)
Theorem C15_same_number n n' : widens -> Typing.num_ok float_val n -> (forall b, n = NFloat F32 b -> ~ f_finite F32 b) ->
  read_back n n' -> denotes n' = denotes n /\ shortest n'.
Proof.
  intros WI OK NF H. destruct H as [k k' z LK|k b b' FF RD|k|k|k|k].
  - split; [reflexivity|now apply least_kind_shortest].
  - destruct k; [now elim (NF b)|]. assert (b' = b) as ->.
    { assert (R := read_finite F64 b FF). unfold float_text in RD. replace (f_is_nan F64 b) with false in RD; [|symmetry; unfold f_is_nan; destruct FF; lia].
      cbn [andb app] in RD. assert (Some b' = Some b) by (rewrite <- RD; rewrite <- R; reflexivity). congruence. }
    apply least_float_denotes.
  - split; [|exact Logic.I]. destruct k; [reflexivity|]. cbn. f_equal. destruct (WI F64 _ _ sf_inf) as [W|]; [exact W|discriminate].
  - split; [|exact Logic.I]. destruct k; [reflexivity|]. cbn. f_equal. destruct (WI F64 _ _ sf_nan) as [W|]; [exact W|discriminate].
  - destruct (least_float_denotes (f_inf F64 + f_signbit F64)) as [-> S]. split; [|exact S]. destruct k; [|reflexivity].
    destruct (WI F64 _ _ sf_minf) as [W|]; [|discriminate]. cbn [denotes]. f_equal. symmetry. exact W.
  - destruct (least_float_denotes (f_nan F64 + f_signbit F64)) as [-> S]. split; [|exact S]. destruct k; [|reflexivity].
    destruct (WI F64 _ _ sf_mnan) as [W|]; [|discriminate]. cbn [denotes]. f_equal. symmetry. exact W.
Qed.

(** C15 is false of the f32 0.1: it is written 0.1, which is another f64. *)
Theorem C15_f32_refuted tenv f : f_show F32 1036831949 = lit "0.1" -> f_integral F32 1036831949 = false ->
  f_read F64 (lit "0.1") = Some 4591870180066957722 -> f_widen (f_narrow 4591870180066957722) = 4591870180174331904 ->
  exists text n', to_string opts_default None (embed (XNum (NFloat F32 1036831949))) = inl text /\
    options_from_str opts_default (de_ty tenv (S f) TAny) text = RValue (embed (XNum n')) /\
    n' = NFloat F64 4591870180066957722.
Proof.
  intros SH IN RD WN.
  assert (TX : float_text F32 1036831949 = lit "0.1") by (unfold float_text; rewrite IN, SH; reflexivity).
  exists (lit "0.1"), (NFloat F64 4591870180066957722). split; [|split; [|reflexivity]].
  - unfold to_string, to_writer. cbn [embed embed_num ser ser_new]. unfold sbind at 1. cbn [sret].
    rewrite (emits_float None F32 1036831949 (ser_init opts_default None None) eq_refl), TX. reflexivity.
  - apply (value_document tenv f opts_default (XNum (NFloat F64 4591870180066957722)) [] [] exts_empty (lit "0.1") []).
    + constructor.
    + constructor.
    + reflexivity.
    + apply v_num. replace (NFloat F64 4591870180066957722) with (least_float 4591870180066957722).
      * apply n_float; [|exact RD]. apply (pt_fraction [] false (lit "0") (lit "1") []); try discriminate; try reflexivity; constructor.
      * unfold least_float. now rewrite WN.
    + left. constructor.
    + cbn. lia.
Qed.
End WithEnv.
Print Assumptions any_document.
Print Assumptions C15_same_number.
Print Assumptions C15_f32_refuted.

(** ** Examples and refutations *)
#[local] Existing Instance Toy.
#[local] Existing Instance toy_xid.
#[local] Existing Instance toy_float.

Example C15_widens : widens.
Proof. intros [] t f H; [now right|]. left. destruct H; reflexivity. Qed.
(** an environment with the f32 0.1 *)
Definition Tenth : Env := {|
  xid_start := xid_start; xid_continue := xid_continue; grapheme_extended := grapheme_extended; printable := printable;
  f_show := fun k b => match k with F32 => if b =? 1036831949 then lit "0.1" else f_show k b | F64 => f_show k b end;
  f_read := fun k s => if str_eqb s (lit "0.1") then Some (match k with F32 => 1036831949 | F64 => 4591870180066957722 end) else f_read k s;
  f_integral := fun k b => match k with F32 => negb (b =? 1036831949) && f_integral k b | F64 => f_integral k b end;
  f_narrow := fun b => if b =? 4591870180066957722 then 1036831949 else f_narrow b;
  f_widen := fun b => if b =? 1036831949 then 4591870180174331904 else f_widen b;
  f_of_int := f_of_int; int128 := int128 |}.
Example C15_f32_ex : XidOk Tenth /\ FloatOk Tenth /\
  @f_show Tenth F32 1036831949 = lit "0.1" /\ @f_integral Tenth F32 1036831949 = false /\
  @f_read Tenth F64 (lit "0.1") = Some 4591870180066957722 /\
  @f_widen Tenth (@f_narrow Tenth 4591870180066957722) = 4591870180174331904.
Proof.
  split; [destruct toy_xid; constructor; assumption|]. split; [|auto]. destruct toy_float as [SN SI SF NI RF R1 R2 R3 R4]. constructor; cbn [f_show f_read f_integral Tenth].
  - intros [] b H; [|auto]. destruct (N.eqb_spec b 1036831949) as [->|]; [discriminate|auto].
  - intros [] b H; [|auto]. destruct (N.eqb_spec b 1036831949) as [->|]; [discriminate|auto].
  - intros [] b H; [|auto]. destruct (N.eqb_spec b 1036831949) as [->|]; [|now apply SF]. exists (lit "0"), (lit "1"). repeat split; discriminate.
  - intros [] b H; [|auto]. destruct (N.eqb_spec b 1036831949) as [->|]; [elim H; reflexivity|]. cbn [negb andb]. auto.
  - intros k b H. assert (R := RF k b H). assert (NE : f_show k b ++ f_point_zero (f_integral k b) <> lit "0.1").
    { change (f_show k b) with (toy_show k b). assert (IT : f_integral k b = true) by (destruct H; cbn; lia). rewrite IT.
      cbn [f_point_zero]. intros EQ. apply (f_equal (@rev N)) in EQ. rewrite rev_app_distr in EQ. discriminate. }
    destruct k; [destruct (N.eqb_spec b 1036831949) as [->|]; [reflexivity|]|]; cbn [negb andb];
      destruct (str_eqb _ (lit "0.1")) eqn:Q; [apply str_eqb_eq in Q; contradiction|exact R|apply str_eqb_eq in Q; contradiction|exact R].
  - intros []; reflexivity.
  - intros []; reflexivity.
  - intros []; reflexivity.
  - intros []; reflexivity.
Qed.

(** {None: [(), -1.0f64, NaN], 7u16: Some('x'), "a": b"\x00"} *)
Definition ex_value : value := XMap
  [(XNum (NInt U16 7), XSome (XChar 120));
   (XNone, XSeq [XUnit; XNum (NFloat F64 (1 + f_signbit F64)); XNum (NFloat F32 (f_nan F32))]);
   (XStr (lit "a"), XBytes [0])].
Definition ex_suffixes : option pconf :=
  Some (PConf None [10] [32;32] [32] false false false exts_empty true true true true true None false).
Lemma ex_a_value : a_value ex_value.
Proof.
  split.
  - repeat first [apply any_map|apply any_seq|apply any_some|constructor]; try (split; reflexivity); reflexivity.
  - apply pr_map; [repeat (constructor; cbn [fst snd]); exact Logic.I|].
    repeat split; intros k v IN; repeat (destruct IN as [IN|IN]; [injection IN as <- <-; reflexivity|]); contradiction.
Qed.
Example C14_ex : a_value ex_value /\ valid_config ex_suffixes /\ number_suffixes ex_suffixes = true /\
  to_string opts_default ex_suffixes (embed ex_value) =
    inl (lit "{7u16: Some('x'), None: [(), -1.0f64, NaNf32], ""a"": b""\x00""}") /\
  options_from_str opts_default (de_ty (fun _ => TUnit) 1 TAny) (lit "{7u16: Some('x'), None: [(), -1.0f64, NaNf32], ""a"": b""\x00""}") =
    RValue (embed ex_value).
Proof. split; [apply ex_a_value|]. vm_compute. repeat split; auto. Qed.
Example C15_ex : a_value ex_value /\
  to_string opts_default None (embed ex_value) = inl (lit "{7:Some('x'),None:[(),-1.0,NaN],""a"":b""\x00""}") /\
  options_from_str opts_default any_value (lit "{7:Some('x'),None:[(),-1.0,NaN],""a"":b""\x00""}") =
    RValue (XMap [(XNum (NInt U8 7), XSome (XChar 120));
      (XNone, XSeq [XUnit; XNum (least_float (1 + f_signbit F64)); XNum (NFloat F32 (f_nan F32))]);
      (XStr (lit "a"), XBytes [0])]).
Proof. split; [apply ex_a_value|]. vm_compute. auto. Qed.

(** C14 is false with implicit_some: Some(1u8) is written 1u8. *)
Theorem C14_implicit_some_refuted : exists o cfg x text y,
  a_value x /\ valid_config cfg /\ number_suffixes cfg = true /\ to_string o cfg (embed x) = inl text /\
  options_from_str o any_value text = RValue y /\ y <> x.
Proof.
  exists (Opts (Exts false true false false) None), ex_suffixes, (XSome (XNum (NInt U8 1))), (lit "1u8"), (XNum (NInt U8 1)).
  split; [split; [repeat constructor|apply pr_some, pr_flat; exact Logic.I]|].
  split; [vm_compute; auto|]. split; [reflexivity|]. split; [vm_compute; reflexivity|]. split; [vm_compute; reflexivity|discriminate].
Qed.
(** C15 is false of the shape: {1u8: true, 1u16: false} is written with the key 1 twice. *)
Theorem C15_keys_refuted : exists x text,
  a_value x /\ to_string opts_default None (embed x) = inl text /\
  embed x = VMap [(VInt U8 1, VBool true); (VInt U16 1, VBool false)] /\
  options_from_str opts_default (de_ty (fun _ => TUnit) 1 TAny) text = RValue (VMap [(VInt U8 1, VBool false)]).
Proof.
  exists (XMap [(XNum (NInt U8 1), XBool true); (XNum (NInt U16 1), XBool false)]), (lit "{1:true,1:false}").
  split; [|vm_compute; auto]. split.
  - apply any_map. repeat constructor.
  - apply pr_map; [repeat (constructor; cbn [fst snd]); exact Logic.I|].
    repeat split; intros k v IN; repeat (destruct IN as [IN|IN]; [injection IN as <- <-; reflexivity|]); contradiction.
Qed.
Print Assumptions C14_implicit_some_refuted.
Print Assumptions C15_keys_refuted.
