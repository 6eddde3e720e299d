(** Reading through a Value (C34). *)
From Coq Require Import String Ascii NArith ZArith Lia Bool List Permutation.
From Coq Require Import ZifyBool ZifyNat ZifyN.
From Verif Require Import Base Facts EnvOk Value Data Parse De IntoRust Span Ser Layout Lit Attr LexWs LexRead DocRead SerLex LexDoc Typed Repr ReprFacts VRepr ValueFacts Accept Made Through
  TypedRead AnyRead TypedMain AnyMain SerWp RangeSpec SerNum SerRepr SerOk ThmTyped ThmAny ThmInto Toy.
Import ListNotations.
Open Scope N_scope.
Open Scope list_scope.

(** ** Lists *)
Lemma items_made {A B} (R : A -> str -> Prop) (R' : B -> str -> Prop) (P : A -> B -> Prop) l t : items R l t ->
  (forall a t, In a l -> R a t -> exists b, R' b t /\ P a b) -> exists l', items R' l' t /\ Forall2 P l l'.
Proof.
  induction 1 as [|a t w H L|a t w w' l ts H L L' I IH]; intros K.
  - exists []. split; constructor.
  - destruct (K a t) as (b & Rb & Pb); [now left|assumption|]. exists [b]. split; [now constructor|]. repeat constructor. assumption.
  - destruct (K a t) as (b & Rb & Pb); [now left|assumption|]. destruct IH as (l' & I' & F); [intros; apply K; [now right|assumption]|].
    exists (b :: l'). split; [now constructor|]. now constructor.
Qed.
Lemma FOP_made {A B} (R : A -> A -> Prop) (R' : B -> B -> Prop) (P : A -> B -> Prop) l l' :
  (forall a b a' b', R a b -> P a a' -> P b b' -> R' a' b') -> ForallOrdPairs R l -> Forall2 P l l' -> ForallOrdPairs R' l'.
Proof.
  intros H O F. revert O. induction F as [|a a' l l' Pa F IH]; intros O; constructor; inversion O as [|? ? O1 O2]; subst; auto.
  clear - H O1 Pa F. induction F as [|b b' l l' Pb F IH]; constructor; inversion O1; subst; eauto.
Qed.

(** ** A map of different keys holds all entries *)
Definition apart (a b : value * value) : Prop := fst a <> fst b.
Lemma insert_perm k x m : wf_value k -> Forall wf_entry m -> Forall (fun kv => k <> fst kv) m ->
  Permutation (snd (map_insert k x m)) ((k, x) :: m).
Proof.
  intros K W N. induction m as [|[k' x'] m IH]; cbn; [apply Permutation_refl|].
  inversion W as [|? ? [Wk _] W']; subst. inversion N as [|? ? N1 N2]; subst. cbn in *.
  destruct (value_cmp k k') eqn:C.
  - apply value_cmp_eq in C; auto. contradiction.
  - apply Permutation_refl.
  - specialize (IH W' N2). destruct (map_insert k x m) as [o r]. cbn in *. rewrite IH. apply perm_swap.
Qed.
Lemma map_of_list_perm es : Forall wf_entry es -> ForallOrdPairs apart es -> Permutation (map_of_list es) es.
Proof.
  assert (G : forall es acc, Forall wf_entry es -> Forall wf_entry acc -> ForallOrdPairs apart es -> (forall a b, In a es -> In b acc -> apart a b) ->
    Permutation (fold_left (fun m kv => snd (map_insert (fst kv) (snd kv) m)) es acc) (es ++ acc)).
  2:{ intros W D. unfold map_of_list. rewrite G; auto; [now rewrite app_nil_r|intros a b _ []]. }
  clear es. induction es as [|[k x] es IH]; intros acc W WA D DA; cbn [fold_left app fst snd]; [apply Permutation_refl|].
  inversion W as [|? ? [Wk Wx] W']; subst. inversion D as [|? ? D1 D2]; subst. cbn in Wk, Wx.
  assert (P : Permutation (snd (map_insert k x acc)) ((k, x) :: acc)).
  { apply insert_perm; auto. rewrite Forall_forall. intros b I. apply (DA (k, x) b); [now left|assumption]. }
  rewrite IH; auto.
  - rewrite P. symmetry. apply Permutation_middle.
  - eapply Permutation_Forall; [symmetry; exact P|]. constructor; [now split|assumption].
  - intros a b I J. eapply Permutation_in in J; [|exact P]. destruct J as [<-|J].
    + rewrite Forall_forall in D1. specialize (D1 a I). unfold apart in *. cbn in *. congruence.
    + apply DA; [now right|assumption].
Qed.

Lemma int_number_nonneg base s z : (0 <= base)%Z -> int_number base s z -> (0 <= z)%Z.
Proof. intros B. induction 1; lia. Qed.
Lemma prefix_nonneg p base : base_prefix p base -> (0 <= base)%Z.
Proof. destruct 1; lia. Qed.
Lemma max_list_le l n : (forall a, In a l -> (a <= n)%nat) -> (max_list l <= n)%nat.
Proof. induction l as [|a l IH]; cbn; intros H; [lia|]. apply Nat.max_lub; [apply H; now left|apply IH; auto]. Qed.
Lemma max_list_ge n l : In n l -> (n <= max_list l)%nat.
Proof. induction l as [|a l IH]; cbn; [contradiction|]. intros [->|H]; [lia|]. apply IH in H. lia. Qed.
Lemma max_list_made {A B} (f : A -> nat) (g : B -> nat) (P : A -> B -> Prop) l l' :
  (forall a b, P a b -> (g b <= 2 * f a)%nat) -> Forall2 P l l' -> (max_list (map g l') <= 2 * max_list (map f l))%nat.
Proof. intros H. induction 1 as [|a b l l' Pa F IH]; cbn [map max_list]; [lia|]. apply H in Pa. lia. Qed.
Lemma Forall2_choose {A B C} (P : A -> B -> C -> Prop) l l' : Forall2 (fun a b => exists c, P a b c) l l' ->
  exists l'', Forall2 (fun a c => exists b, P a b c) l l'' /\ Forall2 (fun b c => exists a, P a b c) l' l''.
Proof.
  induction 1 as [|a b l l' [c H] F (l'' & I & J)]; [exists []; split; constructor|]. exists (c :: l''). split; constructor; eauto.
Qed.
Lemma Forall2_right {A B} (P : A -> B -> Prop) (Q : B -> Prop) l l' : (forall a b, P a b -> Q b) -> Forall2 P l l' -> Forall Q l'.
Proof. intros H. induction 1; constructor; eauto. Qed.
Lemma Forall2_in_l {A B} (P : A -> B -> Prop) l l' : Forall2 P l l' -> Forall2 (fun a b => In a l /\ P a b) l l'.
Proof.
  induction 1 as [|a b l l' H F IH]; constructor; [split; [now left|assumption]|]. eapply Forall2_imp; [|exact IH]. cbn. intuition.
Qed.
Lemma Forall2_maps {A B C D} (f : A -> C) (g : B -> D) (P : C -> D -> Prop) l l' : Forall2 (fun a b => P (f a) (g b)) l l' -> Forall2 P (map f l) (map g l').
Proof. induction 1; constructor; auto. Qed.

Section Bounds.
Context {E : Env} {X : XidOk E} {FO : FloatOk E}.
Definition bits (k : fk) (b : N) : Prop := b < 2 ^ f_bits k.
Lemma num_text_wf n t : FloatIn bits -> num_text n t -> wf_num n.
Proof.
  intros FI H. assert (W : forall k b, bits k b -> wf_num (NFloat k b)) by (intros k b B; exact B).
  assert (LF : forall b, bits F64 b -> wf_num (least_float b)).
  { intros b B. unfold least_float. destruct (_ =? _); apply W; [exact (in_narrow b B)|exact B]. }
  destruct H as [sg neg p base ds z k _ _ _ _|k t z _ _ _|t b _ RD|k t b _ RD| | | | |k t f SP].
  - exact Logic.I.
  - exact Logic.I.
  - apply LF. exact (in_read _ _ _ RD).
  - apply W. exact (in_read _ _ _ RD).
  - apply W. exact (proj1 (in_special F32)).
  - apply W. exact (proj1 (proj2 (in_special F32))).
  - apply LF. exact (proj1 (proj2 (proj2 (in_special F64)))).
  - apply LF. exact (proj2 (proj2 (proj2 (in_special F64)))).
  - apply W. destruct (in_special (fok := bits) k) as (A & B & C & D). destruct SP; assumption.
Qed.
Lemma bound_num k b t : FloatIn bits -> bound (VFloat k b) t -> exists n, num_text n t /\ wf_num n /\ num_into n (TFloat k) = Some (VFloat k b).
Proof.
  intros FI H. inversion H; subst; eexists; (split; [eassumption|]); (split; [eapply num_text_wf; eassumption|]); cbn.
  - match goal with K : is_128 _ = false |- _ => now rewrite K end.
  - destruct k; reflexivity.
  - reflexivity.
  - reflexivity.
Qed.

Lemma num_text_lead n t : num_text n t -> num_lead t \/ exists k f, (f = f_inf \/ f = f_nan) /\ n = NFloat k (f k).
Proof.
  destruct 1 as [sg neg p base ds z k SG BP N LK|k t z SP HI R|t b PT RD|k t b PT RD| | | | |k t f SF].
  - left. assert (H := int_shape _ _ _ _ _ _ SG BP N). destruct H as (sg' & neg' & c & t' & Q & SG' & DC). rewrite Q. destruct SG'; cbn; auto.
  - left. destruct HI as [sg neg p base ds z SG BP N]. assert (H := int_shape _ _ _ _ _ _ SG BP N). destruct H as (sg' & neg' & c & t' & Q & SG' & DC). rewrite Q. destruct SG'; cbn; auto.
  - left. destruct (fs_head _ (pointed_shape t PT)) as (sg & neg & c & t' & -> & SG & DC). destruct SG; cbn; auto.
  - left. destruct (fs_head _ (pointed_shape t PT)) as (sg & neg & c & t' & -> & SG & DC). destruct SG; cbn; auto.
  - right. eauto.
  - right. eauto.
  - left. cbn. auto.
  - left. cbn. auto.
  - destruct SF; [right; eauto|left; cbn; auto|right; eauto|left; cbn; auto].
Qed.
Lemma word_not_leads k f : f = f_inf \/ f = f_nan -> ~ leads (VFloat k (f k)).
Proof. intros [-> | ->]; destruct k; cbn [leads]; intros [[_ H]|H]; vm_compute in H; discriminate H. Qed.
Lemma bound_lead v t : widens -> narrows -> bound v t -> leads v -> num_lead t.
Proof.
  intros WI NA B L.
  assert (SP : forall f, f = f_inf \/ f = f_nan -> exists t, special_float t f) by (intros f [-> | ->]; eexists; constructor).
  destruct B as [k k' z t NT K|k k' z t NT K|k b t NT|b t NT|b t NT]; destruct (num_text_lead _ _ NT) as [H|(k0 & f & F & Q)]; auto; exfalso.
  - discriminate Q.
  - discriminate Q.
  - injection Q as -> ->. exact (word_not_leads _ _ F L).
  - injection Q as <- ->. destruct (SP f F) as [t' S0]. destruct (WI F64 t' f S0) as [W|W]; [|discriminate W]. rewrite W in L. exact (word_not_leads _ _ F L).
  - injection Q as <- ->. destruct (SP f F) as [t' S0]. rewrite (NA t' f S0) in L. exact (word_not_leads _ _ F L).
Qed.
Lemma bound_made tenv fok T v t : FloatIn bits -> typed tenv fok T v -> bound v t -> supported v ->
  exists n, num_text n t /\ wf_num n /\ made tenv T (XNum n) v.
Proof.
  intros FI HT B SU.
  assert (F : forall k b, v = VFloat k b -> exists n, num_text n t /\ wf_num n /\ made tenv (TFloat k) (XNum n) v).
  { intros k b ->. destruct (bound_num _ _ _ FI B) as (n & NT & WN & NN). exists n. split; [exact NT|]. split; [exact WN|].
    destruct n as [k' z|k' b']; cbn in NN.
    - destruct (is_128 k') eqn:K; [discriminate|]. injection NN as <-. now apply md_float_int.
    - injection NN as <-. apply md_float. }
  induction HT; try solve [inversion B].
  - inversion B; subst. eexists. split; [eassumption|]. split; [exact Logic.I|]. now apply md_int.
  - exact (F _ _ eq_refl).
  - destruct (IHHT B SU F) as (m & A1 & A2 & A3). exists m. split; [exact A1|]. split; [exact A2|]. now apply md_ref.
Qed.
End Bounds.

Section WithEnv.
Context {E : Env} {X : XidOk E} {FO : FloatOk E}.
Variable e : exts.
Variable rg : bool.
Variable tenv : nat -> ty.
Variable fok : fk -> N -> Prop.
Hypothesis NI : x_implicit_some e = false.
Hypothesis NU : x_unwrap_newtypes e = false.
Hypothesis NV : x_unwrap_variant_newtypes e = false.
Variable sf0 : token -> Prop.
Hypothesis HN : forall t, sf0 (KName t) -> ~ In t keywords.
Hypothesis HR : sf0 KRange -> rg = true /\ FloatIn bits /\ widens /\ narrows.
Hypothesis HF : forall s k b t, sf0 (KFloat s k b t) -> fok k b -> exists n, num_text n t /\ wf_num n /\ num_into n (TFloat k) = Some (VFloat k b).
Local Notation rep := (repr e sf0).
Local Notation through := (through rg).

Lemma made_unique t x v w : made tenv t x v -> made tenv t x w -> v = w.
Proof.
  intros A B. apply C33_made_converse in A as [n A]. apply C33_made_converse in B as [m B].
  specialize (A (Nat.max n m) ltac:(lia)). specialize (B (Nat.max n m) ltac:(lia)). congruence.
Qed.

Lemma repr_nonempty v t : rep v t -> t <> [].
Proof. intros R ->. destruct (repr_start e sf0 v [] R [32]) as [[S _] _]. discriminate S. Qed.
Lemma items_nonempty l t : l <> [] -> items rep l t -> t <> [].
Proof.
  intros N I. destruct I as [|a t w R L|a t w w' l ts R L L' I]; [congruence| |]; apply repr_nonempty in R; destruct t; cbn; congruence.
Qed.
Lemma name_any gap name tn : name_text e sf0 gap name tn -> VRepr.any_name tn.
Proof. destruct 1 as [N|t w K I L _]; [exact VRepr.an_none|]. eapply VRepr.an_some; eauto. Qed.

Lemma int_num t z k : int_lit t z -> in_range k z = true -> int_supported k = true ->
  exists k', num_text (NInt k' z) t /\ (is_128 k' = true -> is_128 k = true).
Proof.
  intros H R SU. destruct H as [s neg p base ds z SG BP IN].
  assert (Z0 : (0 <= z)%Z) by (eapply int_number_nonneg; [eapply prefix_nonneg|]; eassumption).
  assert (LK : exists k', least_kind neg (signed_value neg z) = Some k' /\ (is_128 k' = true -> is_128 k = true)).
  { destruct (Bool.eqb neg (signed_value neg z <? 0)%Z) eqn:Q.
    - apply eqb_prop in Q. destruct (least_kind_some k _ SU R) as [k' LK]. exists k'. split; [rewrite <- Q in LK; exact LK|].
      intros H. destruct (is_128 k) eqn:K; [reflexivity|]. rewrite <- H. symmetry. eapply least_kind_128; eassumption.
    - assert (neg = true /\ z = 0%Z) as [-> ->] by (apply eqb_false_iff in Q; unfold signed_value in Q; destruct neg; [destruct (Z.ltb_spec (- z) 0)|destruct (Z.ltb_spec z 0)]; try congruence; split; [reflexivity|lia|lia|lia]). exists I8. split; [|discriminate].
      unfold least_kind, int_kinds. cbn [filter]. unfold int_supported at 1. cbn [is_128 negb]. rewrite orb_true_r. reflexivity. }
  destruct LK as (k' & LK & K). exists k'. split; [|exact K]. econstructor; eassumption.
Qed.

Definition goal (v : val) : Prop := forall T t, typed tenv fok T v -> rep v t -> through v ->
  exists x v', vrepr x t /\ wf_value x /\ (vneed x <= 2 * need v)%nat /\ made tenv T (norm x) v' /\ same v v'.
Definition made_goal T v t : Prop :=
  exists x v', vrepr x t /\ wf_value x /\ (vneed x <= 2 * need v)%nat /\ made tenv T (norm x) v' /\ same v v'.
Lemma goal_intro v : (forall T t, no_ref T -> typed tenv fok T v -> rep v t -> through v -> made_goal T v t) -> goal v.
Proof.
  intros H T t HT. revert t. induction HT; intros t' R Th.
  all: try (apply H; [exact Logic.I|econstructor; eassumption|assumption|assumption]).
  destruct (IHHT H t' R Th) as (x & v' & A & B & C & D & F). exists x, v'. exact (conj A (conj B (conj C (conj (md_ref _ _ _ _ D) F)))). 
Qed.


(** one element *)
Definition elem_made (T : ty) (v : val) (x : value) (v' : val) : Prop :=
  wf_value x /\ (vneed x <= 2 * need v)%nat /\ made tenv T (norm x) v' /\ same v v'.
Lemma seq_made T l t : all goal l -> Forall (typed tenv fok T) l -> all through l -> items rep l t ->
  exists xs vs, items vrepr xs t /\ Forall wf_value xs /\ (max_list (map vneed xs) <= 2 * max_list (map need l))%nat /\
    Forall2 (made tenv T) (map norm xs) vs /\ Forall2 same l vs.
Proof.
  intros IH HT Th I. rewrite all_in in IH, Th. rewrite Forall_forall in HT.
  destruct (items_made rep vrepr (fun v x => exists v', elem_made T v x v') l t I) as (xs & J & F).
  { intros v t' IN R. destruct (IH v IN T t' (HT v IN) R (Th v IN)) as (x & v' & A & B & C & D & S). exists x. split; [exact A|]. exists v'. repeat split; auto. }
  apply Forall2_choose in F as F'. destruct F' as (vs & F1 & F2). exists xs, vs. split; [exact J|]. split; [|split; [|split]].
  - eapply Forall2_right; [|exact F]. cbn. intros v x (v' & W & _). exact W.
  - eapply max_list_made; [|exact F]. cbn. intros v x (v' & _ & N & _). exact N.
  - apply Forall2_map. eapply Forall2_imp; [|exact F2]. cbn. intros x v' (v & _ & _ & M & _). exact M.
  - eapply Forall2_imp; [|exact F1]. cbn. intros v v' (x & _ & _ & _ & S). exact S.
Qed.
Lemma tuple_made l : forall Ts t, all goal l -> Forall2 (typed tenv fok) Ts l -> all through l -> items rep l t ->
  exists xs vs, items vrepr xs t /\ Forall wf_value xs /\ (max_list (map vneed xs) <= 2 * max_list (map need l))%nat /\
    length Ts = length (map norm xs) /\
    Forall2 (fun p v => made tenv (fst p) (snd p) v) (combine Ts (map norm xs)) vs /\ Forall2 same l vs.
Proof.
  induction l as [|v l IHl]; intros Ts t IH HT Th I.
  - inversion HT; subst. inversion I; subst. exists [], []. repeat split; constructor.
  - inversion HT as [|T ? Ts' ? T1 T2]; subst. destruct IH as [IH1 IH2], Th as [Th1 Th2]. cbn [fold_right] in *.
    assert (Y : exists t1 x v', rep v t1 /\ vrepr x t1 /\ elem_made T v x v' /\
      ((exists w, layout w /\ t = t1 ++ w /\ l = []) \/ (exists w w' ts, layout w /\ layout w' /\ items rep l ts /\ t = t1 ++ w ++ c_comma :: w' ++ ts))).
    { inversion I as [|a t1 w R L Q1 Q2|a t1 w w' l' ts R L L' J Q1 Q2]; subst.
      - destruct (IH1 T t1 T1 R Th1) as (x & v' & A & B & C & D & S0). exists t1, x, v'. split; [exact R|]. split; [exact A|]. split; [repeat split; assumption|]. left. eauto.
      - destruct (IH1 T t1 T1 R Th1) as (x & v' & A & B & C & D & S0). exists t1, x, v'. split; [exact R|]. split; [exact A|]. split; [repeat split; assumption|]. right. eauto 10. }
    destruct Y as (t1 & x & v' & R & A & (W & N & M & S0) & [(w & L & -> & ->)|(w & w' & ts & L & L' & J & ->)]).
    + inversion T2; subst. exists [x], [v']. split; [now constructor|]. split; [repeat constructor; assumption|]. split; [cbn; lia|].
      split; [reflexivity|]. split; (constructor; [assumption|constructor]).
    + destruct (IHl Ts' ts IH2 T2 Th2 J) as (xs & vs & A1 & A2 & A3 & A4 & A5 & A6). exists (x :: xs), (v' :: vs).
      split; [now constructor|]. split; [now constructor|]. split; [cbn [map max_list]; lia|]. split; [cbn; now rewrite A4|].
      split; [constructor; assumption|now constructor].
Qed.

Lemma arg_plain v t : arg e sf0 rep v t -> exists t1 w, t = t1 ++ w /\ rep v t1 /\ tail w.
Proof. inversion 1; subst; try congruence. eauto. Qed.
Lemma leaf_made T v x v' t : vrepr x t -> wf_value x -> vneed x = O -> made tenv T (norm x) v' -> v = v' -> made_goal T v t.
Proof. intros A B C D <-. exists x, v. rewrite C. repeat split; auto; [lia|constructor]. Qed.

Definition field_made (fields : list (str * ty)) (fv : str * val) (fx : str * value) (fv' : str * val) : Prop :=
  fst fx = fst fv /\ fst fv' = fst fv /\ exists T, In (fst fv, T) fields /\ elem_made T (snd fv) (snd fx) (snd fv').
Lemma struct_made deny n fields l fs' xs t : NoDup (map fst fields) -> map fst l = map fst fields -> Permutation l fs' ->
  Forall2 (fun fv fx => exists fv', field_made fields fv fx fv') fs' xs ->
  vrepr (XMap (map (fun kv => (XStr (fst kv), snd kv)) xs)) t -> made_goal (TStruct deny n fields) (VStruct n l) t.
Proof.
  intros ND MF PM F RV.
  assert (F' := F). apply Forall2_choose in F' as (gs' & F1 & F2).
  pose (ys := map (fun fx => (XStr (fst fx), norm (snd fx))) xs).
  assert (WY : Forall wf_entry ys).
  { apply Forall_map. eapply Forall2_right; [|exact F]. cbn. intros kv kx (kv' & _ & _ & T & _ & (W2 & _)). split; [exact Logic.I|]. now apply norm_wf. }
  assert (NDF : NoDup (map fst fs')).
  { eapply Permutation_NoDup; [apply Permutation_map; exact PM|]. now rewrite MF. }
  assert (MX : map fst xs = map fst fs').
  { clear - F. induction F as [|a b l l' (c & Q & _) F IH]; cbn; congruence. }
  assert (MG : map fst gs' = map fst fs').
  { clear - F1. induction F1 as [|a b l l' (c & _ & Q & _) F IH]; cbn; congruence. }
  assert (AP : ForallOrdPairs apart ys).
  { unfold ys. rewrite <- MX in NDF. clear - NDF. induction xs as [|[f x] xs IH]; cbn in *; constructor; inversion NDF as [|? ? N1 N2]; subst; auto.
    apply Forall_map. rewrite Forall_forall. intros [g y] IN Q. cbn in Q. injection Q as ->. apply N1. now apply (in_map fst) in IN. }
  assert (PY := map_of_list_perm ys WY AP).
  pose (some := fun gv : str * val => (fst gv, Some (snd gv))).
  assert (FM : Forall2 (made_entry (made tenv) deny fields) ys (map some gs')).
  { apply Forall2_maps. eapply Forall2_imp; [|exact F2]. intros [f x] [g v'] ((f0 & v) & Q1 & Q2 & T & IT & (_ & _ & M & _)). cbn in *. subst.
    apply me_known with (t := T); [|exact M]. constructor. now apply TypedRead.assoc_in. }
  destruct (Permutation_Forall2 (Permutation_sym PY) FM) as (ents & PE & FE).
  destruct (Permutation_Forall2 (Permutation_sym PM) F1) as (gs & PG & FG).
  assert (GV : Permutation (given ents) gs').
  { unfold given. rewrite <- PE. clear. induction gs' as [|[g v] gs IH]; cbn; [constructor|]. now constructor. }
  exists (XMap (map (fun kv => (XStr (fst kv), snd kv)) xs)), (VStruct n gs). split; [exact RV|].
  split.
  { apply wf_map, Forall_map. eapply Forall2_right; [|exact F]. cbn. intros kv kx (kv' & _ & _ & T & _ & (W2 & _)). split; [exact Logic.I|exact W2]. }
  split.
  { cbn [vneed need]. rewrite map_map. cbn [fst snd vneed].
    assert (max_list (map (fun x => Nat.max 0 (vneed (snd x))) xs) <= 2 * max_list (map (fun kv => need (snd kv)) l))%nat; [|lia].
    apply max_list_le. intros a IA. apply in_map_iff in IA as (fx & <- & IX).
    assert (exists fv, In fv fs' /\ (vneed (snd fx) <= 2 * need (snd fv))%nat) as (fv & IF & LE).
    { clear - F IX. induction F as [|fv fx' l l' (c & _ & _ & T & _ & (_ & N & _)) F IH]; [destruct IX|].
      destruct IX as [->|IX]; [exists fv; split; [now left|exact N]|]. destruct (IH IX) as (fv' & ? & ?). exists fv'. split; [now right|assumption]. }
    apply (Permutation_in _ (Permutation_sym PM)) in IF. apply (in_map (fun kv => need (snd kv))) in IF. apply max_list_ge in IF. lia. }
  split.
  { cbn [norm]. rewrite map_map. cbn [fst snd norm]. fold ys. eapply md_struct; [exact FE|]. split; [|split].
    - eapply Permutation_NoDup; [apply Permutation_map, Permutation_sym; exact GV|]. now rewrite MG.
    - rewrite <- MF. clear - FG. induction FG as [|a b l l' (c & _ & Q & _) F IH]; cbn; congruence.
    - assert (LN : length fields = length gs).
      { rewrite <- (map_length fst fields), <- MF, map_length. clear - FG. induction FG; cbn; congruence. }
      assert (IN : forall g, In g gs -> In g (given ents)).
      { intros g IG. eapply Permutation_in; [apply Permutation_sym; exact GV|]. eapply Permutation_in; [apply Permutation_sym; exact PG|exact IG]. }
      clear - LN IN. revert gs LN IN. induction fields as [|f fields IH]; intros [|g gs] LN IN; try discriminate LN; constructor; [left; apply IN; now left|].
      apply IH; [now injection LN|]. intros; apply IN; now right. }
  apply sm_struct. eapply Forall2_imp; [|exact FG]. cbn. intros fv fv' (fx & _ & Q & T & _ & (_ & _ & _ & S0)). auto.
Qed.
(** a range in range syntax *)
Lemma made_range_field fields l f v t : FloatIn bits ->
  Forall (fun fv => exists T, In (fst fv, T) fields /\ typed tenv fok T (snd fv)) l -> In (f, v) l -> bound v t -> supported v ->
  exists n, num_text n t /\ field_made fields (f, v) (f, XNum n) (f, v).
Proof.
  intros FI TF IN B SU. rewrite Forall_forall in TF. destruct (TF _ IN) as (T & IT & HT). cbn [fst snd] in *.
  destruct (bound_made tenv fok T v t FI HT B SU) as (n & NT & WN & M). exists n. split; [exact NT|].
  split; [reflexivity|]. split; [reflexivity|]. exists T. split; [exact IT|]. split; [exact WN|]. split; [cbn; lia|]. split; [exact M|constructor].
Qed.
Lemma bound_is_number v t : bound v t -> is_number v = true.
Proof. destruct 1; reflexivity. Qed.
Lemma range_made deny n fields l t : NoDup (map fst fields) -> map fst l = map fst fields ->
  Forall (fun fv => exists T, In (fst fv, T) fields /\ typed tenv fok T (snd fv)) l -> (rg = true -> range_through n l) ->
  sf0 KRange -> range_text (VStruct n l) t -> made_goal (TStruct deny n fields) (VStruct n l) t.
Proof.
  intros ND MF TF TR K RT. destruct (HR K) as (RG & FI & WI & NA). destruct (TR RG) as [EF SU]. clear TR.
  assert (V : forall xs, range_lit (XMap (map (fun kv => (XStr (fst kv), snd kv)) xs)) t -> Forall2 (fun fv fx => exists fv', field_made fields fv fx fv') l xs ->
    made_goal (TStruct deny n fields) (VStruct n l) t).
  { intros xs RL F. apply (struct_made deny n fields l l xs); auto. now apply v_range. }
  assert (ONE : forall f v t', In (f, v) l -> bound v t' -> supported v -> exists m, num_text m t' /\ exists fv', field_made fields (f, v) (f, XNum m) fv').
  { intros f v t' IN B S0. destruct (made_range_field fields l f v t' FI TF IN B S0) as (m & NT & FM). eauto. }
  unfold ends_fine in EF.
  inversion RT as [a b ta tb Ba Bb La Q1 Q2|a b ta tb Ba Bb La Q1 Q2|a ta Ba Q1 Q2|b tb Bb Q1 Q2|b tb Bb Q1 Q2|]; subst.
  - assert (NR : numeric_range s_Range [(s_start, a); (s_end, b)] = true) by (unfold numeric_range; cbn [forallb snd]; rewrite (bound_is_number _ _ Ba), (bound_is_number _ _ Bb); reflexivity).
    specialize (SU NR). specialize (EF NR (or_introl eq_refl)). cbn [all fold_right fst snd last] in SU, EF. destruct SU as (Sa & Sb & _).
    destruct (ONE s_start a ta (or_introl eq_refl) Ba Sa) as (na & NTa & Fa).
    destruct (ONE s_end b tb (or_intror (or_introl eq_refl)) Bb Sb) as (nb & NTb & Fb).
    apply (V [(s_start, XNum na); (s_end, XNum nb)]); [apply rl_range; auto; exact (bound_lead _ _ WI NA Bb EF)|repeat (constructor; [assumption|]); constructor].
  - assert (NR : numeric_range s_RangeInclusive [(s_start, a); (s_end, b)] = true) by (unfold numeric_range; cbn [forallb snd]; rewrite (bound_is_number _ _ Ba), (bound_is_number _ _ Bb); reflexivity).
    specialize (SU NR). cbn [all fold_right fst snd] in SU. destruct SU as (Sa & Sb & _).
    destruct (ONE s_start a ta (or_introl eq_refl) Ba Sa) as (na & NTa & Fa).
    destruct (ONE s_end b tb (or_intror (or_introl eq_refl)) Bb Sb) as (nb & NTb & Fb).
    apply (V [(s_start, XNum na); (s_end, XNum nb)]); [now apply rl_inclusive|repeat (constructor; [assumption|]); constructor].
  - assert (NR : numeric_range s_RangeFrom [(s_start, a)] = true) by (unfold numeric_range; cbn [forallb snd]; rewrite (bound_is_number _ _ Ba); reflexivity).
    specialize (SU NR). cbn [all fold_right fst snd] in SU. destruct SU as (Sa & _).
    destruct (ONE s_start a ta (or_introl eq_refl) Ba Sa) as (na & NTa & Fa).
    apply (V [(s_start, XNum na)]); [now apply rl_from|repeat (constructor; [assumption|]); constructor].
  - assert (NR : numeric_range s_RangeTo [(s_end, b)] = true) by (unfold numeric_range; cbn [forallb snd]; rewrite (bound_is_number _ _ Bb); reflexivity).
    specialize (SU NR). specialize (EF NR (or_intror eq_refl)). cbn [all fold_right fst snd last] in SU, EF. destruct SU as (Sb & _).
    destruct (ONE s_end b tb (or_introl eq_refl) Bb Sb) as (nb & NTb & Fb).
    apply (V [(s_end, XNum nb)]); [apply rl_to; auto; exact (bound_lead _ _ WI NA Bb EF)|repeat (constructor; [assumption|]); constructor].
  - assert (NR : numeric_range s_RangeToInclusive [(s_end, b)] = true) by (unfold numeric_range; cbn [forallb snd]; rewrite (bound_is_number _ _ Bb); reflexivity).
    specialize (SU NR). cbn [all fold_right fst snd] in SU. destruct SU as (Sb & _).
    destruct (ONE s_end b tb (or_introl eq_refl) Bb Sb) as (nb & NTb & Fb).
    apply (V [(s_end, XNum nb)]); [now apply rl_to_inclusive|repeat (constructor; [assumption|]); constructor].
Qed.

Ltac no_range := solve [match goal with RT : range_text _ _ |- _ => inversion RT end].
Theorem all_goal v : goal v.
Proof.
  induction v as [v F|v IH|n v IH|l IH|l IH|n l IH|l IH|n l IH|n k v IH|n k l IH|n k l IH] using val_ind';
    apply goal_intro; intros T t NR HT R Th.
  - destruct v; try contradiction F; try contradiction Th; try (inversion HT; subst; contradiction NR).
    + inversion HT; subst; [|contradiction NR]. inversion R; subst; try contradiction; try congruence; try no_range.
      eapply leaf_made; [apply v_bool|exact Logic.I|reflexivity|apply md_bool|reflexivity].
    + inversion HT; subst; [|contradiction NR]. inversion R; subst; try contradiction; try congruence; try no_range.
      all: match goal with IL : int_lit _ ?z0, IR : in_range ?k0 ?z0 = true, SU : int_supported ?k0 = true |- _ => rename IL into IL0, IR into IR0, SU into SU0 end.
      * destruct (int_num _ _ _ IL0 IR0 SU0) as (k' & NT & K). eapply leaf_made; [apply v_num; exact NT|exact Logic.I|reflexivity|apply md_int; assumption|reflexivity].
      * eapply leaf_made; [apply v_num, n_int_suffix; eassumption|exact Logic.I|reflexivity|apply md_int; auto|reflexivity].
    + inversion HT; subst; [|contradiction NR]. inversion R; subst; try contradiction; try congruence; try no_range.
      match goal with K : sf0 (KFloat _ _ _ _) |- _ => apply HF in K; [|assumption]; destruct K as (n & NT & WN & NN) end.
      eapply leaf_made; [apply v_num; exact NT|exact WN|reflexivity| |reflexivity].
      cbn [norm]. destruct n as [k' z|k' b']; cbn in NN.
      * destruct (is_128 k') eqn:K; [discriminate|]. injection NN as <-. now apply md_float_int.
      * injection NN as <-. apply md_float.
    + inversion HT; subst; [|contradiction NR]. inversion R; subst; try contradiction; try congruence; try no_range.
      eapply leaf_made; [apply v_char; eassumption|exact Logic.I|reflexivity|apply md_char|reflexivity].
    + inversion HT; subst; [|contradiction NR]. inversion R; subst; try contradiction; try congruence; try no_range.
      eapply leaf_made; [apply v_str; eassumption|exact Logic.I|reflexivity|apply md_str|reflexivity].
    + inversion HT; subst; [|contradiction NR]. inversion R; subst; try contradiction; try congruence; try no_range.
      eapply leaf_made; [apply v_bytes; eassumption|exact Logic.I|reflexivity|apply md_bytes|reflexivity].
    + inversion HT; subst; [|contradiction NR]. inversion R; subst; try contradiction; try congruence; try no_range.
      eapply leaf_made; [apply v_unit|exact Logic.I|reflexivity|apply md_unit|reflexivity].
    + inversion HT; subst; [|contradiction NR]. inversion R; subst; try contradiction; try congruence; try no_range.
      * eapply leaf_made; [apply v_unit|exact Logic.I|reflexivity|apply md_unit_struct|reflexivity].
      * eapply leaf_made; [eapply v_name; eauto|exact Logic.I|reflexivity|apply md_unit_struct|reflexivity].
      * match goal with RT : range_text _ _ |- _ => inversion RT; subst end.
        eapply leaf_made; [apply v_range, rl_full|exact Logic.I|reflexivity|apply md_unit_struct|reflexivity].
    + inversion HT; subst; [|contradiction NR]. inversion R; subst; try contradiction; try congruence; try no_range.
      eapply leaf_made; [apply v_none|exact Logic.I|reflexivity|apply md_none|reflexivity].
  - inversion HT; subst; [|contradiction NR]. inversion R; subst; try contradiction; try congruence; try no_range.
    match goal with H : typed _ _ ?T0 v, H2 : arg _ _ _ _ _ |- _ => rename T0 into T', H into T1, H2 into AR end.
    destruct (arg_plain _ _ AR) as (t2 & w1 & -> & R1 & TL).
    destruct (IH T' t2 T1 R1 Th) as (x & v' & A & B & C & D & S0).
    exists (XSome x), (VSome v'). split; [rewrite <- app_assoc; now apply v_some|]. split; [exact B|]. split; [cbn [vneed need]; lia|].
    split; [now apply md_some|now apply sm_some].
  - inversion HT; subst; [|contradiction NR]. inversion R; subst; try contradiction; try congruence; try no_range.
    match goal with H : typed _ _ ?T0 v, NT0 : name_text _ _ _ _ ?tn0, H2 : rep v ?t1, TL0 : tail ?w1 |- _ => rename T0 into T', H into T1, H2 into R1, NT0 into NT, TL0 into TL, tn0 into tn, t1 into t0, w1 into w' end.
    match goal with L : layout ?w0 |- _ => rename w0 into w end.
    destruct (IH T' t0 T1 R1 Th) as (x & v' & A & B & C & D & S0).
    exists (XSeq [x]), (VNewtype n v'). split.
    { replace (tn ++ c_lp :: w ++ t0 ++ w' ++ [c_rp]) with (tn ++ c_lp :: w ++ (t0 ++ w') ++ [c_rp]) by now rewrite <- app_assoc.
      apply v_tuple; [eapply name_any; eassumption|assumption| |].
      - destruct TL as [w1 L1|w1 w2 L1 L2]; [now constructor|]. rewrite <- (app_nil_r w2). apply it_cons; auto. constructor.
      - intros _. apply repr_nonempty in R1. destruct w, t0; cbn; congruence. }
    split; [apply wf_seq; repeat constructor; exact B|]. split; [cbn; lia|]. split; [now apply md_newtype|now apply sm_newtype].
  - inversion HT; subst; [|contradiction NR].
    inversion R; subst; try contradiction; try congruence; try no_range.
    match goal with I : items _ _ _, H : Forall _ _ |- _ => destruct (seq_made _ _ _ IH H Th I) as (xs & vs & A1 & A2 & A3 & A4 & A5) end.
    exists (XSeq xs), (VSeq vs). split; [now apply v_seq|]. split; [now apply wf_seq|]. split; [cbn [vneed need]; lia|].
    split; [now apply md_seq|now apply sm_seq].
  - destruct Th as [NE Th]. inversion HT; subst; [|contradiction NR].
    inversion R; subst; try contradiction; try congruence; try no_range.
    match goal with I : items _ _ _, H : Forall2 _ _ _ |- _ => destruct (tuple_made _ _ _ IH H Th I) as (xs & vs & A1 & A2 & A3 & A4 & A5 & A6);
      assert (NN := items_nonempty _ _ NE I) end.
    exists (XSeq xs), (VTuple vs). split; [apply (v_tuple []); auto; [exact VRepr.an_none|]; intros _ Q; apply app_eq_nil in Q as [_ Q]; contradiction|].
    split; [now apply wf_seq|]. split; [cbn [vneed need]; lia|]. split; [now apply md_tuple|now apply sm_tuple].
  - destruct Th as [NE Th]. inversion HT; subst; [|contradiction NR].
    inversion R; subst; try contradiction; try congruence; try no_range.
    match goal with I : items _ _ _, H : Forall2 _ _ _ |- _ => destruct (tuple_made _ _ _ IH H Th I) as (xs & vs & A1 & A2 & A3 & A4 & A5 & A6);
      assert (NN := items_nonempty _ _ NE I) end.
    exists (XSeq xs), (VTupleStruct n vs). split; [apply v_tuple; auto; [eapply name_any; eassumption|]; intros _ Q; apply app_eq_nil in Q as [_ Q]; contradiction|].
    split; [now apply wf_seq|]. split; [cbn [vneed need]; lia|]. split; [now apply md_tuple_struct|now apply sm_tuple_struct].
  - (* maps *)
    destruct Th as [DK Th]. inversion HT; subst; [|contradiction NR]. inversion R; subst; try contradiction; try congruence; try no_range.
    match goal with TF0 : Forall _ l, I0 : items _ l ?t1 |- made_goal (TMap ?k0 ?v0) _ _ => rename k0 into kt, v0 into vt, TF0 into TF, I0 into I, t1 into t0 end.
    rewrite all_in in IH, Th. rewrite Forall_forall in TF.
    pose (P := fun (kv : val * val) (kx : value * value) (kv' : val * val) =>
      elem_made kt (fst kv) (fst kx) (fst kv') /\ elem_made vt (snd kv) (snd kx) (snd kv')).
    destruct (items_made _ (entry vrepr vrepr) (fun kv kx => exists kv', P kv kx kv') l t0 I) as (xs & J & F).
    { intros kv t' IN RE. destruct RE as [k tk v tv w1 w2 RK L1 L2 RV]. destruct (IH _ IN) as [IK IV], (TF _ IN) as [TK TV], (Th _ IN) as [ThK ThV].
      cbn [fst snd] in *.
      destruct (IK _ _ TK RK ThK) as (xk & k' & A1 & B1 & C1 & D1 & S1). destruct (IV _ _ TV RV ThV) as (xv & v' & A2 & B2 & C2 & D2 & S2).
      exists (xk, xv). split; [now constructor|]. exists (k', v'). repeat split; assumption. }
    assert (F' := F). apply Forall2_choose in F' as (vs & F1 & F2).
    pose (ys := map (fun kv => (norm (fst kv), norm (snd kv))) xs).
    assert (WX : Forall wf_entry xs).
    { eapply Forall2_right; [|exact F]. cbn. intros kv kx (kv' & (W1 & _) & (W2 & _)). now split. }
    assert (WY : Forall wf_entry ys) by now apply norm_entries.
    assert (AP : ForallOrdPairs apart ys).
    { apply (FOP_made (fun a b => ~ same (fst a) (fst b)) apart (fun kv ky => exists k', made tenv kt (fst ky) k' /\ same (fst kv) k') l ys); [|exact DK|].
      - intros a b a' b' NS (k1 & M1 & S1) (k2 & M2 & S2) Q. apply NS. rewrite Q in M1. rewrite (made_unique _ _ _ _ M1 M2) in S1.
        eapply sm_trans; [exact S1|]. now apply sm_sym.
      - unfold ys. clear - F. induction F as [|kv kx l xs (kv' & (_ & _ & M & S0) & _) F IH]; constructor; cbn; eauto. }
    assert (PM := map_of_list_perm ys WY AP).
    assert (FM : Forall2 (fun kx kv => made tenv kt (fst kx) (fst kv) /\ made tenv vt (snd kx) (snd kv)) ys vs).
    { apply Forall2_map. eapply Forall2_imp; [|exact F2]. cbn. intros kx kv' (kv & (_ & _ & M1 & _) & (_ & _ & M2 & _)). auto. }
    destruct (Permutation_Forall2 (Permutation_sym PM) FM) as (vs' & PV & FV).
    exists (XMap xs), (VMap vs'). split; [now apply v_map|]. split; [now apply wf_map|]. split.
    { cbn [vneed need].
      assert (max_list (map (fun kv => Nat.max (vneed (fst kv)) (vneed (snd kv))) xs) <= 2 * max_list (map (fun kv => Nat.max (need (fst kv)) (need (snd kv))) l))%nat; [|lia].
      eapply max_list_made; [|exact F]. cbn. intros kv kx (kv' & (_ & N1 & _) & (_ & N2 & _)). lia. }
    split; [now apply md_map|]. eapply sm_trans; [apply sm_map with (es' := vs)|now apply sm_perm].
    eapply Forall2_imp; [|exact F1]. cbn. intros kv kv' (kx & (_ & _ & _ & S1) & (_ & _ & _ & S2)). auto.
  - (* structs *)
    destruct Th as (NE & TR & Th). inversion HT; subst; [|contradiction NR]. inversion R; subst; try contradiction; try congruence; try no_range; [eapply range_made; eassumption|].
    match goal with TF0 : Forall _ l, ND0 : NoDup (map fst ?fl), MF0 : map fst l = _, I0 : items _ ?f1 ?t1, PM0 : Permutation l _, NT0 : name_text _ _ _ _ ?tn0 |- made_goal (TStruct ?d _ _) _ _ => rename fl into fields, d into deny, TF0 into TF, ND0 into ND, MF0 into MF, I0 into I, PM0 into PM, f1 into fs', t1 into t0, tn0 into tn, NT0 into NT end.
    rewrite all_in in IH, Th. rewrite Forall_forall in TF.
    destruct (items_made _ (entry field_key_text vrepr) (fun fv fx => exists fv', field_made fields fv fx fv') fs' t0 I) as (xs & J & F).
    { intros fv t' IN RE. destruct RE as [k tk v tv w1 w2 RK L1 L2 RV]. apply (Permutation_in _ (Permutation_sym PM)) in IN.
      destruct (TF _ IN) as (T & IT & TV). cbn [fst snd] in *.
      destruct (IH _ IN T tv TV RV (Th _ IN)) as (x & v' & A1 & B1 & C1 & D1 & S1).
      exists (k, x). split; [now constructor|]. exists (k, v'). repeat split. exists T. split; [exact IT|]. repeat split; assumption. }
    apply (struct_made deny n fields l fs' xs); auto.
    apply v_struct; auto; [eapply name_any; eassumption|]. intros ->. inversion F; subst. apply Permutation_sym, Permutation_nil in PM. contradiction.
  - contradiction Th.
  - contradiction Th.
  - contradiction Th.
Qed.
End WithEnv.

Section Proofs.
Context {E : Env} {X : XidOk E} {FO : FloatOk E}.

(** Reading a text as a Value and converting the Value gives what reading the
    text gives, up to the order of map entries.  [2 * need v]: the calls of the
    deserializer are nested deeper for a newtype read as a Value. *)
Theorem C34_through rg tenv fok o T v w0 at0 x t w1 : (rg = true -> FloatIn bits /\ widens /\ narrows) ->
  layout w0 -> attrs_text at0 x -> repr (exts_or x (o_exts o)) (neutral rg) v t -> final_layout w1 ->
  x_implicit_some (exts_or x (o_exts o)) = false -> x_unwrap_newtypes (exts_or x (o_exts o)) = false ->
  x_unwrap_variant_newtypes (exts_or x (o_exts o)) = false ->
  typed tenv fok T v -> through rg v -> room (2 * need v) (o_limit o) ->
  exists y v', same v v' /\ options_from_str o any_value (w0 ++ at0 ++ t ++ w1) = RValue y /\
    exists n, forall f, (n <= f)%nat ->
      options_from_str o (de_ty tenv f T) (w0 ++ at0 ++ t ++ w1) = RValue v /\ into_rust tenv f T (norm y) = CVal v'.
Proof.
  intros CO L HA R FL NI NU NV HT Th RM.
  destruct (all_goal _ rg tenv fok NI NU NV (neutral rg) (fun t H => H) (fun H => conj H (CO H)) (fun s k b t H _ => H) v T t HT R Th) as (y & v' & A & B & C & D & S0).
  destruct (typed_document (neutral rg) tenv fok o T v w0 at0 x t w1 L HA R FL HT) as (n & H); [eapply room_le; [|exact RM]; lia|].
  apply C33_made_converse in D as (m & M). exists y, v'. split; [exact S0|]. split.
  - apply (any_document o y w0 at0 x t w1); auto. eapply room_le; [|exact RM]. exact C.
  - exists (Nat.max n m). intros f LF. split; [apply H; lia|apply M; lia].
Qed.

(** and so for what is written, whatever the configuration.  Without suffixes
    an f32 is read as f64 first; [bound_fine] says that this makes no
    difference for it. *)
Theorem C34_written tenv o cfg T v text : FloatIn bits -> widens -> narrows -> valid_config cfg -> ranges_ok (extensions o cfg) cfg false v ->
  x_implicit_some (extensions o cfg) = false -> x_unwrap_newtypes (extensions o cfg) = false ->
  x_unwrap_variant_newtypes (extensions o cfg) = false ->
  typed tenv (fun k b => float_val k b /\ bound_fine (number_suffixes cfg) (VFloat k b)) T v -> through (compact_ranges cfg) v ->
  room (2 * need v) (o_limit o) -> to_string o cfg v = inl text ->
  exists y v', same v v' /\ options_from_str o any_value text = RValue y /\
    exists n, forall f, (n <= f)%nat ->
      options_from_str o (de_ty tenv f T) text = RValue v /\ into_rust tenv f T (norm y) = CVal v'.
Proof.
  intros FI WI NA VC CR NI NU NV HT Th RM TS.
  destruct (to_string_repr o cfg VC _ v text (fun k b H => proj1 H) (typed_plain _ _ _ _ HT) (no_clash _ _ (eq_trans (f_equal (andb _) NV) (andb_false_r _))) CR TS)
    as (a & x & t & -> & HA & EX & RP).
  assert (HF : forall s k b t', sf cfg (KFloat s k b t') -> float_val k b /\ bound_fine (number_suffixes cfg) (VFloat k b) ->
    exists n, num_text n t' /\ wf_num n /\ num_into n (TFloat k) = Some (VFloat k b)).
  { cbn [sf]. intros s k b t' (-> & BB & ->) [FV BF]. apply bound_num; [exact FI|]. apply (bound_text cfg (VFloat k b)); auto.
    - discriminate.
    - intros k' b' Q. injection Q as <- <-. exact FV. }
  assert (HR : sf cfg KRange -> compact_ranges cfg = true /\ FloatIn bits /\ widens /\ narrows) by (cbn [sf]; auto).
  destruct (all_goal (extensions o cfg) (compact_ranges cfg) tenv _ NI NU NV (sf cfg) (fun t H => H) HR HF v T t HT RP Th) as (y & v' & A & B & C & D & S0).
  assert (RM' : room (need v) (o_limit o)) by (eapply room_le; [|exact RM]; lia). rewrite <- EX in RP.
  destruct (typed_document (sf cfg) tenv _ o T v [] a x t [] (l_nil) HA RP (or_introl l_nil) HT RM') as (n & H).
  apply C33_made_converse in D as (m & M). rewrite app_nil_r in H. exists y, v'. split; [exact S0|]. split.
  - rewrite <- EX in NV. assert (RD := any_document o y [] a x t [] l_nil HA NV A (or_introl l_nil) (room_le _ _ _ C RM)). rewrite app_nil_r in RD. exact RD.
  - exists (Nat.max n m). intros f LF. split; [apply H; lia|apply M; lia].
Qed.
End Proofs.
Print Assumptions C34_through.
Print Assumptions C34_written.

(** ** Examples *)
#[local] Existing Instance Toy.
#[local] Existing Instance toy_xid.
#[local] Existing Instance toy_float.

Lemma same_str v w : same v w -> forall s, v = VStr s <-> w = VStr s.
Proof.
  induction 1; intros s0; try (split; discriminate); try tauto.
  - symmetry. apply IHsame.
  - rewrite (IHsame1 s0). apply IHsame2.
Qed.
Definition ex_type : ty :=
  TStruct true (lit "P") [(lit "a", TMap TStr (TInt I32)); (lit "b", TNewtype (lit "N") (TOption TUnit)); (lit "c", TTuple [TChar; TSeq (TInt U8)])].
Definition ex_val (m : list (val * val)) : val :=
  VStruct (lit "P") [(lit "a", VMap m); (lit "b", VNewtype (lit "N") (VSome VUnit)); (lit "c", VTuple [VChar 120; VSeq [VInt U8 1; VInt U8 2]])].
Definition ex_yx : list (val * val) := [(VStr (lit "y"), VInt I32 1); (VStr (lit "x"), VInt I32 (-2))].
Definition ex_xy : list (val * val) := [(VStr (lit "x"), VInt I32 (-2)); (VStr (lit "y"), VInt I32 1)].
Definition ex_text : str := lit "(a:{""y"":1,""x"":-2},b:(Some(())),c:('x',[1,2]))".
(** the conditions of [C34_written] hold *)
Example C34_ex : typed no_refs (fun k b => float_val k b /\ bound_fine false (VFloat k b)) ex_type (ex_val ex_yx) /\ through false (ex_val ex_yx) /\
  to_string opts_default None (ex_val ex_yx) = inl ex_text /\ (2 * need (ex_val ex_yx) <= 128)%nat.
Proof.
  split; [|split; [|split; [vm_compute; reflexivity|cbn; lia]]].
  - apply ty_struct; [apply nodup_str; reflexivity|reflexivity|]. constructor; [|constructor; [|constructor; [|constructor]]].
    + eexists. split; [left; reflexivity|]. apply ty_map. repeat constructor; apply wf_lit.
    + eexists. split; [right; left; reflexivity|]. repeat constructor.
    + eexists. split; [right; right; left; reflexivity|]. repeat constructor.
  - cbn. repeat split; try discriminate. repeat constructor. intros S0. apply same_str with (s := lit "y") in S0. destruct S0 as [S0 _].
    specialize (S0 eq_refl). discriminate S0.
Qed.
(** the entries of the map have changed places *)
Example C34_order_ex : exists y, options_from_str opts_default any_value ex_text = RValue y /\
  options_from_str opts_default (de_ty no_refs 9 ex_type) ex_text = RValue (ex_val ex_yx) /\
  into_rust no_refs 9 ex_type (norm y) = CVal (ex_val ex_xy) /\ same (ex_val ex_yx) (ex_val ex_xy).
Proof.
  eexists. split; [vm_compute; reflexivity|]. split; [vm_compute; reflexivity|]. split; [vm_compute; reflexivity|].
  apply sm_struct. constructor; [|constructor; [|constructor; [|constructor]]]; (split; [reflexivity|]); [|apply sm_refl|apply sm_refl].
  apply sm_perm. apply perm_swap.
Qed.

(** ** Where the two ways part *)
Definition parts (o : opts) (T : ty) (text : str) : Prop :=
  exists v y er, options_from_str o (de_ty no_refs 9 T) text = RValue v /\
    options_from_str o any_value text = RValue y /\ into_rust no_refs 9 T (norm y) = CErr er.
Ltac part := unfold parts; eexists _, _, _; split; [vm_compute; reflexivity|split; [vm_compute; reflexivity|vm_compute; reflexivity]].
(** a unit stands for an empty struct or an array of length 0, but not in a
    Value *)
Theorem C34_empty_struct_refuted : parts opts_default (TStruct true (lit "P") []) (lit "()").
Proof. part. Qed.
Theorem C34_all_optional_refuted : parts opts_default (TStruct true (lit "P") [(lit "a", TOption TBool)]) (lit "()").
Proof. part. Qed.
Theorem C34_empty_array_refuted : parts opts_default (TTuple []) (lit "()").
Proof. part. Qed.
(** extensions that leave out what the Value would have to know *)
Theorem C34_implicit_some_refuted : parts opts_default (TOption (TInt U8)) (lit "#![enable(implicit_some)]5").
Proof. part. Qed.
Theorem C34_unwrap_newtypes_refuted : parts opts_default (TNewtype (lit "N") (TInt U8)) (lit "#![enable(unwrap_newtypes)]5").
Proof. part. Qed.
(** a float written as a large integer *)
Theorem C34_large_float_refuted : parts opts_default (TFloat F64) (lit "18446744073709551616").
Proof. part. Qed.
(** ranges: Vec<(Range<u8>, RangeFull, Option<RangeTo<f64>>)>, written compactly *)
Definition ex_compact : option pconf :=
  Some (PConf None [10] [32;32;32;32] [32] false false false exts_empty false true false false false None true).
Definition ex_rtype : ty :=
  TSeq (TTuple [TStruct true s_Range [(s_start, TInt U8); (s_end, TInt U8)]; TUnitStruct s_RangeFull; TOption (TStruct true s_RangeTo [(s_end, TFloat F64)])]).
Definition ex_rval : val :=
  VSeq [VTuple [VStruct s_Range [(s_start, VInt U8 1); (s_end, VInt U8 5)]; VUnitStruct s_RangeFull; VSome (VStruct s_RangeTo [(s_end, VFloat F64 1)])]].
Definition ex_rtext : str := lit "[
    (1..5, .., Some(..1.0)),
]".
Example C34_narrows : narrows.
Proof. intros t f []; vm_compute; reflexivity. Qed.
Example C34_range_ex : typed no_refs (fun k b => float_val k b /\ bound_fine false (VFloat k b)) ex_rtype ex_rval /\ through true ex_rval /\
  ranges_ok (extensions opts_default ex_compact) ex_compact false ex_rval /\
  to_string opts_default ex_compact ex_rval = inl ex_rtext /\ (2 * need ex_rval <= 128)%nat /\
  exists y, options_from_str opts_default any_value ex_rtext = RValue y /\
    options_from_str opts_default (de_ty no_refs 20 ex_rtype) ex_rtext = RValue ex_rval /\
    into_rust no_refs 20 ex_rtype (norm y) = CVal ex_rval.
Proof.
  split; [|split; [|split; [|split; [vm_compute; reflexivity|split; [cbn; lia|]]]]].
  - apply ty_seq. constructor; [|constructor]. apply ty_tuple. constructor; [|constructor; [apply ty_unit_struct|constructor; [|constructor]]].
    + apply ty_struct; [apply nodup_str; reflexivity|reflexivity|]. constructor; [|constructor; [|constructor]]; (eexists; split; [cbn; auto|]; apply ty_int; reflexivity).
    + apply ty_some, ty_struct; [apply nodup_str; reflexivity|reflexivity|]. constructor; [|constructor]. eexists; split; [cbn; auto|]. apply ty_float. split; [split; reflexivity|exact Logic.I].
  - unfold ex_rval. cbn [through all fold_right fst snd]. unfold range_through, ends_fine.
    repeat split; try discriminate; intros; cbn; auto. left. split; reflexivity.
  - intros _. unfold ex_rval. cbn [range_fine all fold_right fst snd].
    change (numeric_range s_Range [(s_start, VInt U8 1); (s_end, VInt U8 5)]) with true. change (numeric_range s_RangeTo [(s_end, VFloat F64 1)]) with true.
    cbn [all fold_right fst snd bound_fine leads]. assert (W := C15_widens). repeat split; try exact W; reflexivity.
  - eexists. split; [vm_compute; reflexivity|]. split; vm_compute; reflexivity.
Qed.
(** an end spelled [inf] is read only where a range is asked for *)
Theorem C34_range_end_refuted : exists v er sp,
  options_from_str opts_default (de_ty no_refs 9 (TStruct true s_RangeTo [(s_end, TFloat F64)])) (lit "..inf") = RValue v /\
  options_from_str opts_default any_value (lit "..inf") = RError er sp.
Proof. eexists _, _, _. split; vm_compute; reflexivity. Qed.

(** and documents that only the Value accepts *)
Definition laxer (o : opts) (T : ty) (text : str) : Prop :=
  exists v y er sp, options_from_str o (de_ty no_refs 9 T) text = RError er sp /\
    options_from_str o any_value text = RValue y /\ into_rust no_refs 9 T (norm y) = CVal v.
Ltac lax := unfold laxer; eexists _, _, _, _; split; [vm_compute; reflexivity|split; [vm_compute; reflexivity|vm_compute; reflexivity]].
Theorem C34_laxer : laxer opts_default TChar (lit """a""") /\ laxer opts_default (TSeq (TInt U8)) (lit "(1,2)") /\
  laxer opts_default (TStruct true (lit "P") [(lit "a", TInt U8)]) (lit "{""a"":1}") /\
  laxer opts_default (TStruct true (lit "P") [(lit "a", TInt U8)]) (lit "Q(a:1)") /\
  laxer opts_default (TMap TStr (TInt U8)) (lit "(a:1)").
Proof. split; [lax|split; [lax|split; [lax|split; lax]]]. Qed.
