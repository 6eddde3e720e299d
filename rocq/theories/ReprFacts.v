(** Induction over [repr], and how represented texts begin. *)
From Coq Require Import String Ascii NArith ZArith Lia Bool List Permutation.
From Coq Require Import ZifyBool ZifyNat ZifyN.
From Verif Require Import Base Facts Value Data Parse De Span EnvOk Layout Lit Attr LexWs LexRead DocRead LexDoc Repr.
Import ListNotations.
Open Scope N_scope.
Open Scope list_scope.

Definition items_mono {A} (R R' : A -> str -> Prop) (f : forall a t, R a t -> R' a t) :=
  fix go l t (H : items R l t) {struct H} : items R' l t :=
    match H in items _ l t return items R' l t with
    | it_nil _ => it_nil _
    | it_last _ a t w r lw => it_last _ a t w (f a t r) lw
    | it_cons _ a t w w' l ts r lw lw' rest => it_cons _ a t w w' l ts (f a t r) lw lw' (go l ts rest)
    end.
Definition entry_mono {K V} (RK RK' : K -> str -> Prop) (R R' : V -> str -> Prop)
  (fk : forall a t, RK a t -> RK' a t) (f : forall a t, R a t -> R' a t) p t (H : entry RK R p t) : entry RK' R' p t :=
  match H in entry _ _ p t return entry RK' R' p t with
  | en _ _ k tk v tv w w' hk lw lw' hv => en _ _ k tk v tv w w' (fk k tk hk) lw lw' (f v tv hv)
  end.

Section WithEnv.
Context {E : Env}.
Variable e : exts.
Variable sf : token -> Prop.

Section ArgMono.
Variables R R' : val -> str -> Prop.
Variable f : forall v t, R v t -> R' v t.
Fixpoint arg_mono v t (H : arg e sf R v t) {struct H} : arg e sf R' v t :=
  match H in arg _ _ _ v t return arg e sf R' v t with
  | a_plain _ _ _ v t w h r tl => a_plain e sf R' v t w h (f v t r) tl
  | a_unit _ _ _ w h tl sl => a_unit e sf R' w h tl sl
  | a_unit_struct _ _ _ n w h tl sl => a_unit_struct e sf R' n w h tl sl
  | a_range _ _ _ v t w h s r tl => a_range e sf R' v t w h s r tl
  | a_newtype _ _ _ n v t w h r tl => a_newtype e sf R' n v t w h (f v t r) tl
  | a_tuple _ _ _ l t h i => a_tuple e sf R' l t h (items_mono _ _ f l t i)
  | a_tuple_struct _ _ _ n l t h i => a_tuple_struct e sf R' n l t h (items_mono _ _ f l t i)
  | a_struct _ _ _ n fs fs' t h p i =>
      a_struct e sf R' n fs fs' t h p (items_mono _ _ (entry_mono _ _ _ _ (fun _ _ x => x) f) fs' t i)
  | a_some _ _ _ v t w w' w'' h h' l l' a tl => a_some e sf R' v t w w' w'' h h' l l' (arg_mono v t a) tl
  | a_implicit _ _ _ v t h h' n a => a_implicit e sf R' v t h h' n (arg_mono v t a)
  end.
End ArgMono.

Section Ind.
Variable P : val -> str -> Prop.
Definition both (v : val) (t : str) : Prop := repr e sf v t /\ P v t.
Hypothesis H_bool : forall b : bool, P (VBool b) (if b then s_true else s_false).
Hypothesis H_int : forall k z t, sf (KInt false z t) -> int_supported k = true -> int_lit t z -> P (VInt k z) t.
Hypothesis H_int_suffix : forall k z t, sf (KInt true z t) -> int_supported k = true -> int_lit t z -> P (VInt k z) (t ++ ik_suffix k).
Hypothesis H_float : forall k b sfx t, sf (KFloat sfx k b t) -> float_lit k sfx t b -> P (VFloat k b) t.
Hypothesis H_char : forall c t, char_lit t c -> P (VChar c) t.
Hypothesis H_str : forall s t, string_lit t s -> P (VStr s) t.
Hypothesis H_bytes : forall b t, bytes_lit t b -> P (VBytes b) t.
Hypothesis H_unit : P VUnit s_unit.
Hypothesis H_unit_struct : forall name, x_explicit_struct_names e = false -> P (VUnitStruct name) s_unit.
Hypothesis H_unit_struct_name : forall name t, sf (KName t) -> ident_lit t name -> P (VUnitStruct name) t.
Hypothesis H_range : forall v t, sf KRange -> range_text v t -> P v t.
Hypothesis H_none : P VNone s_None.
Hypothesis H_some : forall v t w w', layout w -> layout w' -> arg e sf both v t ->
  P (VSome v) (s_Some ++ w ++ c_lp :: w' ++ t ++ [c_rp]).
Hypothesis H_implicit : forall v t, x_implicit_some e = true -> no_option t -> repr e sf v t -> P v t -> P (VSome v) t.
Hypothesis H_newtype : forall name v tn t w w', x_unwrap_newtypes e = false -> name_text e sf true name tn ->
  layout w -> repr e sf v t -> P v t -> tail w' -> P (VNewtype name v) (tn ++ c_lp :: w ++ t ++ w' ++ [c_rp]).
Hypothesis H_newtype_unwrapped : forall name v t, x_unwrap_newtypes e = true -> repr e sf v t -> P v t -> P (VNewtype name v) t.
Hypothesis H_seq : forall l t w, layout w -> items both l t -> P (VSeq l) (c_lb :: w ++ t ++ [c_rb]).
Hypothesis H_tuple : forall l t w, layout w -> items both l t -> P (VTuple l) (c_lp :: w ++ t ++ [c_rp]).
Hypothesis H_tuple_struct : forall name l tn t w, name_text e sf false name tn -> layout w -> items both l t ->
  P (VTupleStruct name l) (tn ++ c_lp :: w ++ t ++ [c_rp]).
Hypothesis H_map : forall es t w, layout w -> items (entry both both) es t -> P (VMap es) (c_lc :: w ++ t ++ [c_rc]).
Hypothesis H_struct : forall name fs fs' tn t w, name_text e sf true name tn -> layout w -> Permutation fs fs' ->
  items (entry field_key_text both) fs' t -> P (VStruct name fs) (tn ++ c_lp :: w ++ t ++ [c_rp]).
Hypothesis H_unit_variant : forall ename k t, sf (KName t) -> ident_lit t k -> P (VUnitVariant ename k) t.
Hypothesis H_new_variant : forall ename k v tk t w w', sf (KName tk) -> ident_lit tk k -> layout w -> layout w' -> arg e sf both v t ->
  P (VNewVariant ename k v) (tk ++ w ++ c_lp :: w' ++ t ++ [c_rp]).
Hypothesis H_tup_variant : forall ename k l tk t w w', sf (KName tk) -> ident_lit tk k -> layout w -> layout w' -> items both l t ->
  P (VTupVariant ename k l) (tk ++ w ++ c_lp :: w' ++ t ++ [c_rp]).
Hypothesis H_struct_variant : forall ename k fs fs' tk t w w', sf (KName tk) -> ident_lit tk k -> layout w -> layout w' ->
  Permutation fs fs' -> items (entry field_key_text both) fs' t ->
  P (VStructVariant ename k fs) (tk ++ w ++ c_lp :: w' ++ t ++ [c_rp]).

Fixpoint repr_ind' v t (H : repr e sf v t) {struct H} : P v t :=
  let b v t (h : repr e sf v t) : both v t := conj h (repr_ind' v t h) in
  match H in repr _ _ v t return P v t with
  | r_bool _ _ b => H_bool b
  | r_int _ _ k z t s a b => H_int k z t s a b
  | r_int_suffix _ _ k z t s a b => H_int_suffix k z t s a b
  | r_float _ _ k b s t f h => H_float k b s t f h
  | r_char _ _ c t h => H_char c t h
  | r_str _ _ s t h => H_str s t h
  | r_bytes _ _ s t h => H_bytes s t h
  | r_unit _ _ => H_unit
  | r_unit_struct _ _ n h => H_unit_struct n h
  | r_unit_struct_name _ _ n t s h => H_unit_struct_name n t s h
  | r_range _ _ v t s r => H_range v t s r
  | r_none _ _ => H_none
  | r_some _ _ v t w w' l l' a => H_some v t w w' l l' (arg_mono _ _ b v t a)
  | r_implicit _ _ v t h n r => H_implicit v t h n r (repr_ind' v t r)
  | r_newtype _ _ n v tn t w w' h ht l r tl => H_newtype n v tn t w w' h ht l r (repr_ind' v t r) tl
  | r_newtype_unwrapped _ _ n v t h r => H_newtype_unwrapped n v t h r (repr_ind' v t r)
  | r_seq _ _ l t w lw i => H_seq l t w lw (items_mono _ _ b l t i)
  | r_tuple _ _ l t w lw i => H_tuple l t w lw (items_mono _ _ b l t i)
  | r_tuple_struct _ _ n l tn t w h lw i => H_tuple_struct n l tn t w h lw (items_mono _ _ b l t i)
  | r_map _ _ es t w lw i => H_map es t w lw (items_mono _ _ (entry_mono _ _ _ _ b b) es t i)
  | r_struct _ _ n fs fs' tn t w h lw p i =>
      H_struct n fs fs' tn t w h lw p (items_mono _ _ (entry_mono _ _ _ _ (fun _ _ x => x) b) fs' t i)
  | r_unit_variant _ _ x k t s h => H_unit_variant x k t s h
  | r_new_variant _ _ x k v tk t w w' s h l l' a => H_new_variant x k v tk t w w' s h l l' (arg_mono _ _ b v t a)
  | r_tup_variant _ _ x k vs tk t w w' s h l l' i => H_tup_variant x k vs tk t w w' s h l l' (items_mono _ _ b vs t i)
  | r_struct_variant _ _ x k fs fs' tk t w w' s h l l' p i =>
      H_struct_variant x k fs fs' tk t w w' s h l l' p (items_mono _ _ (entry_mono _ _ _ _ (fun _ _ x => x) b) fs' t i)
  end.
End Ind.

Context {X : XidOk E}.

(** ** Beginnings *)

(** neither layout, nor an attribute, nor closing punctuation *)
Definition opener (c : char) : Prop :=
  is_ws_char c = false /\ ~ In c [c_slash; c_hash; c_rp; c_rb; c_rc; c_comma; c_colon].
Definition opens (r : str) : Prop := match r with [] => False | c :: _ => opener c end.
Lemma opener_xid c : xid_continue c = true -> opener c.
Proof.
  intros H. split.
  - destruct (is_ws_char c) eqn:W; [|reflexivity]. rewrite (ws_not_xid c W) in H. discriminate.
  - intros IN. cbn in IN. rewrite xid_continue_ascii in H by (cbn in *; lia). unfold is_alpha, is_digit in H. cbn in *. lia.
Qed.
Lemma ident_opens t n r : ident_lit t n -> opens (t ++ r).
Proof.
  intros H. destruct (ident_lit_head t n r H) as (c & t' & -> & XC). now apply opener_xid.
Qed.
Ltac opens_char := split; [reflexivity|cbn; intuition discriminate].
Lemma opener_num c : is_digit c = true \/ c = c_plus \/ c = c_minus -> opener c.
Proof.
  intros H. split; [unfold is_digit in H; destruct (is_ws_char c) eqn:W; [|reflexivity]; unfold is_ws_char in W; lia|].
  unfold is_digit in H. cbn. lia.
Qed.
Lemma int_opens t z r : int_lit t z -> opens (t ++ r).
Proof.
  destruct 1 as [sg neg p base ds z SG BP N]. destruct SG; [|apply opener_num; tauto..]. destruct BP; [|opens_char..].
  apply int_number_fold in N as (F & _ & c & s' & -> & N). inversion F as [|? ? D _]; subst. destruct D as [->|(d & D & L)]; [contradiction|].
  cbn [app opens]. apply opener_num. left. destruct D; unfold is_digit; lia.
Qed.
Lemma numeral_opens t r : numeral t -> opens (t ++ r).
Proof.
  destruct 1 as [sg neg ds fr ex SG DN D FR EX]. destruct SG; [|apply opener_num; tauto..].
  destruct ds as [|c ds]; [contradiction|]. cbn [forallb] in D. apply andb_prop in D as [D _]. apply opener_num. tauto.
Qed.
Lemma float_opens k sfx t b r : float_lit k sfx t b -> opens (t ++ r).
Proof.
  intros H. revert r. induction H as [t b N R|t f S|t b F IH]; intros r.
  - now apply numeral_opens.
  - destruct S; opens_char.
  - rewrite <- app_assoc. apply IH.
Qed.
Lemma name_opens gap n t r : name_text e sf gap n t -> opens r -> opens (t ++ r).
Proof.
  destruct 1 as [|t w _ H _ _]; intros V; [exact V|]. rewrite <- app_assoc. eapply ident_opens; eassumption.
Qed.
Lemma pointed_opens t r : pointed t -> opens (t ++ r).
Proof.
  destruct 1 as [sg neg ds fs ex SG DN D _ _ _]. destruct SG; [|apply opener_num; tauto..].
  destruct ds as [|c ds]; [contradiction|]. cbn [forallb] in D. apply andb_prop in D as [D _]. apply opener_num. tauto.
Qed.
Lemma num_text_opens n t r : num_text n t -> opens (t ++ r).
Proof.
  destruct 1 as [sg neg p base ds z k SG BP N LK|k t z SP HI R|t b PT RD|k t b PT RD| | | | |k t f SF]; try opens_char.
  - apply (int_opens _ (signed_value neg z)). econstructor; eassumption.
  - rewrite <- app_assoc. eapply int_opens; eassumption.
  - now apply pointed_opens.
  - rewrite <- app_assoc. now apply pointed_opens.
  - rewrite <- app_assoc. destruct SF; opens_char.
Qed.
Lemma bound_opens v t r : bound v t -> opens (t ++ r).
Proof. destruct 1; eapply num_text_opens; eassumption. Qed.
Lemma range_opens v t r : range_text v t -> opens (t ++ r).
Proof. destruct 1; rewrite <- ?app_assoc; try (eapply bound_opens; eassumption); opens_char. Qed.
Lemma opens_ne t : opens t -> t <> [].
Proof. now destruct t. Qed.
Lemma repr_opens v t : repr e sf v t -> forall r, opens (t ++ r).
Proof.
  intros H. revert v t H. apply (repr_ind' (fun v t => forall r, opens (t ++ r))); intros; auto; try opens_char.
  - destruct b; opens_char.
  - eapply int_opens; eassumption.
  - rewrite <- app_assoc. eapply int_opens; eassumption.
  - eapply float_opens; eassumption.
  - match goal with H : char_lit _ _ |- _ => destruct H end; opens_char.
  - match goal with H : string_lit _ _ |- _ => destruct H end; opens_char.
  - match goal with H : bytes_lit _ _ |- _ => destruct H end; opens_char.
  - eapply ident_opens; eassumption.
  - eapply range_opens; eassumption.
  - rewrite <- app_assoc. eapply name_opens; [eassumption|opens_char].
  - rewrite <- app_assoc. eapply name_opens; [eassumption|opens_char].
  - rewrite <- app_assoc. eapply name_opens; [eassumption|opens_char].
  - eapply ident_opens; eassumption.
  - rewrite <- app_assoc. eapply ident_opens; eassumption.
  - rewrite <- app_assoc. eapply ident_opens; eassumption.
  - rewrite <- app_assoc. eapply ident_opens; eassumption.
Qed.
Lemma opens_value_start r : opens r -> value_start r.
Proof. destruct r as [|c r]; [intros []|]. cbn. intros [W N]. cbn in N. apply value_start_cons; [assumption|intros ->; tauto..]. Qed.
Lemma opens_solid r : opens r -> solid r.
Proof. intros H. now apply opens_value_start. Qed.
Lemma repr_start v t : repr e sf v t -> forall r, value_start (t ++ r).
Proof. intros H r. apply opens_value_start. now apply repr_opens with v. Qed.
Lemma ne_length {A} (t : list A) : t <> [] -> (1 <= length t)%nat.
Proof. destruct t; cbn; [congruence|lia]. Qed.
Lemma int_lit_ne t z : int_lit t z -> t <> [].
Proof.
  destruct 1 as [sg neg p base ds z SG BP N]. intros EQ. apply app_eq_nil in EQ as [_ EQ]. apply app_eq_nil in EQ as [_ ->].
  apply int_number_fold in N as (_ & _ & c & s' & N & _). discriminate.
Qed.
Lemma float_lit_ne k sfx t b : float_lit k sfx t b -> t <> [].
Proof.
  induction 1 as [t b N R|t f S|t b F IH].
  - destruct N as [sg neg ds fr ex SG DN D FR EX]. intros EQ. apply app_eq_nil in EQ as [_ EQ]. apply app_eq_nil in EQ as [-> _]. congruence.
  - destruct S; discriminate.
  - intros EQ. apply app_eq_nil in EQ as [EQ _]. congruence.
Qed.
Lemma repr_length v t : repr e sf v t -> (1 <= length t)%nat.
Proof.
  intros H. revert v t H. apply (repr_ind' (fun v t => (1 <= length t)%nat)); intros; rewrite ?app_length; cbn [length app]; try (destruct b; cbn; lia); try lia; auto;
    try (match goal with H : int_lit _ _ |- _ => apply int_lit_ne, ne_length in H; unfold str in *; lia end); apply ne_length; try discriminate.
  - eapply float_lit_ne; eassumption.
  - match goal with H : char_lit _ _ |- _ => destruct H end; discriminate.
  - match goal with H : string_lit _ _ |- _ => destruct H end; discriminate.
  - match goal with H : bytes_lit _ _ |- _ => destruct H end; discriminate.
  - match goal with H : ident_lit _ _ |- _ => destruct H end; discriminate.
  - match goal with H : range_text _ ?t |- _ => apply range_opens with (r := []) in H; rewrite app_nil_r in H end. now apply opens_ne.
  - match goal with H : ident_lit _ _ |- _ => destruct H end; discriminate.
Qed.
Lemma value_start_solid t : value_start t -> solid t.
Proof. now intros []. Qed.
Lemma repr_solid v t r : repr e sf v t -> solid (t ++ r).
Proof. intros H. apply value_start_solid. now apply repr_start with v. Qed.
End WithEnv.
