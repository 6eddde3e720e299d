(** Reading structs with flattened fields (C59): the fields of the struct are
    read as such, the other entries go into the buffer. *)
From Coq Require Import String Ascii NArith ZArith Lia Bool List Permutation.
From Coq Require Import ZifyBool ZifyNat ZifyN.
From Verif Require Import Base Facts Value Data Parse De Wp EnvOk Layout Lit LexSafe LexWs LexRead DocSafe DocRead SerLex Typing Repr ReprFacts TypedRead TypedMain VRepr AnyRead AnyMain Unwrap IntoRust Content ContentRead ContentMain ThmInto Buffered ContentWrite Tagged Owned TaggedRead TaggedWrite Flatten.
Import ListNotations.
Open Scope N_scope.
Open Scope list_scope.
Open Scope m_scope.

(** ** Texts *)
Section Text.
Context {E : Env}.
Variable e : exts.
Variable sf : token -> Prop.
Variable c : nat.
(** a field of the struct itself, or another entry *)
Inductive flat_item : (str * val) + (str * value) -> str -> Prop :=
  | fi_own k tk v tv w w' : string_lit tk k -> layout w -> layout w' -> repr e sf v tv ->
      flat_item (inl (k, v)) (tk ++ w ++ c_colon :: w' ++ tv)
  | fi_other k tk x tv w w' : string_lit tk k -> layout w -> layout w' -> crepr (x_unwrap_variant_newtypes e) c x tv ->
      flat_item (inr (k, x)) (tk ++ w ++ c_colon :: w' ++ tv).
End Text.
(** the types of the fields of the struct itself *)
Definition own_types (decls : list (str * fdecl)) : list (str * ty) :=
  flat_map (fun d => match snd d with FOwn t => [(fst d, t)] | _ => [] end) decls.

Section WithEnv.
Context {E : Env} {X : XidOk E} {FO : FloatOk E}.
Variable e : exts.
Variable sf : token -> Prop.
Variable tenv : nat -> ty.
Variable fok : fk -> N -> Prop.
Variable decls : list (str * fdecl).
Local Notation u := (x_unwrap_variant_newtypes e).
Local Notation both := (ReprFacts.both e sf (ok e tenv fok)).
Lemma own_eq : owns decls = own_types decls.
Proof. reflexivity. Qed.

Section Loop.
Variable f : nat.
Definition item : Type := ((str * val) + (str * value))%type.
Inductive good_flat (c : nat) : item -> str -> Prop :=
  | gf_own k tk T v tv w w' : assoc k (owns decls) = Some T -> good e parse_string c tk k -> layout w -> layout w' -> good e (de_ty tenv f T) c tv v ->
      good_flat c (inl (k, v)) (tk ++ w ++ c_colon :: w' ++ tv)
  | gf_other k tk x tv w w' : assoc k (owns decls) = None -> good e parse_string c tk k -> layout w -> layout w' -> good e content_value c tv x ->
      good_flat c (inr (k, x)) (tk ++ w ++ c_colon :: w' ++ tv).
Lemma good_flat_opens c p t : good_flat c p t -> forall r, opens (t ++ r).
Proof. intros [k tk T v tv w w' _ [O _] _ _ _|k tk x tv w w' _ [O _] _ _ _] r; rewrite <- app_assoc; apply O. Qed.
Definition fresh (acc : list (str * val)) (l : list item) : Prop :=
  NoDup (map fst (lefts l)) /\ forall k, In k (map fst (lefts l)) -> assoc k acc = None.
Local Notation loop := (flat_loop tenv f decls).
Lemma assoc_other {V} k k' (v : V) l : k <> k' -> assoc k ((k', v) :: l) = assoc k l.
Proof. intros N0. cbn [assoc]. destruct (str_eqb k k') eqn:Q; [apply str_eqb_eq in Q; congruence|reflexivity]. Qed.
Lemma tr_flat_item c p tp w1 t2 (D : str -> Prop) b w0 n acc :
  good_flat c p tp -> layout w0 -> layout w1 ->
  (forall w2, layout w2 -> tr e comma false false (S c) (w2 ++ t2) D b) -> (forall r, D r -> closing (t2 ++ r)) ->
  forall l t3 D3, fresh acc (p :: l) ->
  (forall acc', fresh acc' l -> tr e (loop n acc' b) false false (S c) t3 D3 (rev (lefts l) ++ acc', rights l)) ->
  (forall r, D3 r -> D (t3 ++ r)) ->
  tr e (loop (S n) acc true) false false (S c) (w0 ++ tp ++ w1 ++ t2 ++ t3) D3 (rev (lefts (p :: l)) ++ acc, rights (p :: l)).
Proof.
  intros G L0 L1 CM HD l t3 D3 [ND FR] NX HD3. cbn [flat_loop].
  assert (C : closer c_rc) by (cbn; tauto).
  destruct G as [k tk T v tv w w' IT GK L L' GV|k tk x tv w w' IT GK L L' GV].
  - eapply tr_text; [eapply (trw_bind e _ _ false (S c) (w0 ++ tk) w (c_colon :: w' ++ tv ++ w1 ++ t2 ++ t3) D3 (Some k))|texts];
      [now apply trw_key|assumption|intros r _; cbn; tauto|].
    intros w2 LW2. rewrite IT. cbn [lefts flat_map app map fst] in ND, FR. fold (lefts l) in ND, FR. rewrite (FR k) by now left. inversion ND as [|? ? NI ND']; subst.
    eapply tr_text; [refine (tr_bind e _ _ false false false (S c) (w2 ++ c_colon :: w' ++ tv ++ w1 ++ t2) t3 D D3 (v, b) _ _ _ HD3)|texts].
    + apply tr_colon; auto.
    + cbn [fst snd]. cbn [lefts rights flat_map app rev]. fold (lefts l). fold (rights l). rewrite <- app_assoc. cbn [app]. apply NX. split; [exact ND'|].
      intros k' IN. rewrite assoc_other by (intros ->; contradiction). apply FR. now right.
  - eapply tr_text; [eapply (trw_bind e _ _ false (S c) (w0 ++ tk) w (c_colon :: w' ++ tv ++ w1 ++ t2 ++ t3) D3 (Some k))|texts];
      [now apply trw_key|assumption|intros r _; cbn; tauto|].
    intros w2 LW2. rewrite IT.
    eapply tr_text; [refine (tr_bind e _ _ false false false (S c) (w2 ++ c_colon :: w' ++ tv ++ w1 ++ t2) t3 D D3 (x, b) _ _ _ HD3)|texts].
    + apply tr_colon; auto.
    + cbn [fst snd]. eapply tr_bind_l with (D1 := D3); [apply (NX acc); split; [exact ND|exact FR]| |auto]. cbn [fst snd]. apply tr_ret.
Qed.
Lemma tr_flat_loop c l t : items (good_flat c) l t ->
  forall n w0 had acc, layout w0 -> (length l < n)%nat -> (had = true \/ l = []) -> fresh acc l ->
  tr e (loop n acc had) false false (S c) (w0 ++ t) (begins c_rc) (rev (lefts l) ++ acc, rights l).
Proof.
  assert (C : closer c_rc) by (cbn; tauto).
  assert (NIL : forall n w0 had acc, layout w0 -> (0 < n)%nat ->
    tr e (loop n acc had) false false (S c) w0 (begins c_rc) (acc, [])).
  { intros [|n] w0 had acc L0 F; [lia|]. cbn [flat_loop]. eapply tr_bind_l; [apply tr_no_key; assumption| |auto]. cbv iota. apply tr_ret. }
  induction 1 as [|a t w G L|a t w w' l ts G L L' I IH]; intros n w0 had acc L0 F H FR; cbn [length] in F.
  - rewrite app_nil_r. now apply NIL.
  - destruct H as [->|H]; [|discriminate]. destruct n as [|n]; [lia|].
    eapply tr_text; [apply (tr_flat_item c a t w [] (begins c_rc) false w0 n acc G L0 L) with (t3 := []) (D3 := begins c_rc)|rewrite !app_nil_r; reflexivity]; auto.
    + intros w2 LW2. rewrite app_nil_r. now apply tr_no_comma.
    + intros r. apply closing_begins. cbn in *. tauto.
    + intros acc' _. apply NIL; [constructor|lia].
  - destruct H as [->|H]; [|discriminate]. destruct n as [|n]; [lia|].
    eapply tr_text; [apply (tr_flat_item c a t w (c_comma :: w') solid true w0 n acc G L0 L) with (t3 := ts) (D3 := begins c_rc)|texts]; auto.
    + intros w2 LW2. now apply tr_comma.
    + cbn. tauto.
    + intros acc' FR'. apply (IH n [] true acc' l_nil); [lia|now left|exact FR'].
    + intros r HB. eapply items_solid; [|exact I|now apply closer_solid with c_rc]. intros a' t' G'. eapply good_flat_opens; exact G'.
Qed.
End Loop.

(** the texts are good for enough fuel *)
Lemma good_key c tk k : string_lit tk k -> good e parse_string c tk k.
Proof. intros H. apply good_tr; [intros r; apply (crepr_opens false 0 (XStr k) tk); now apply c_str|]. eapply tr_D; [apply tr_lex, reads_string; exact H|now intros]. Qed.
Lemma flat_good_one c : NoDup (map fst (own_types decls)) -> forall p t, flat_item e sf c p t -> Forall (fun fv => exists T, In (fst fv, T) (own_types decls) /\ typed tenv fok T (snd fv) /\ (need (snd fv) <= c)%nat) (lefts [p]) ->
    Forall (fun kx => ~ In (fst kx) (map fst (own_types decls))) (rights [p]) -> exists n, forall f, (n <= f)%nat -> good_flat f c p t.
Proof.
  intros ND. intros p t0 [k tk v tv w w' HK L L' R|k tk x tv w w' HK L L' R] F1 F2; cbn [lefts rights flat_map app] in *.
  - inversion F1 as [|? ? (T & IN & HT & LC) _]; subst. cbn [fst snd] in *. 
      destruct (ok_good e sf tenv fok v tv T c) as (n & H); [split; [exact R|now apply repr_ok with sf]|exact HT|exact LC|].
      exists n. intros f LF. apply gf_own with T; auto; [now apply TypedRead.assoc_in|now apply good_key].
  - inversion F2 as [|? ? NI _]; subst. exists 0%nat. intros f _. apply gf_other; auto; [|now apply good_key|now apply good_content].
      destruct (assoc k (owns decls)) as [T|] eqn:Q; [|reflexivity]. exfalso. apply NI. cbn [fst]. apply DeSafe.assoc_in in Q. now apply (in_map fst) in Q.
Qed.
Lemma flat_good c (l : list item) t : items (flat_item e sf c) l t -> NoDup (map fst (own_types decls)) ->
  Forall (fun fv => exists T, In (fst fv, T) (own_types decls) /\ typed tenv fok T (snd fv) /\ (need (snd fv) <= c)%nat) (lefts l) ->
  Forall (fun kx => ~ In (fst kx) (map fst (own_types decls))) (rights l) ->
  exists n, forall f, (n <= f)%nat -> items (good_flat f c) l t.
Proof.
  intros IT ND FL FR.
  assert (ONE := flat_good_one c ND).
  induction IT as [|a t w H L|a t w w' l ts H L L' I0 IH].
  - exists 0%nat. intros; constructor.
  - destruct (ONE a t H FL FR) as (n & G). exists n. intros f LF. apply it_last; auto.
  - change (a :: l) with ([a] ++ l) in FL, FR. unfold lefts, rights in FL, FR. rewrite flat_map_app in FL, FR. apply Forall_app in FL as [F1 F2]. apply Forall_app in FR as [F3 F4].
    destruct (ONE a t H F1 F3) as (n & G). destruct (IH F2 F4) as (m & G'). exists (Nat.max n m). intros f LF. apply it_cons; auto; [apply G; lia|apply G'; lia].
Qed.
(** the whole struct *)
Theorem tr_flat deny sname c l t w own flat left : items (flat_item e sf c) l t -> layout w -> NoDup (map fst (own_types decls)) ->
  map fst own = map fst (own_types decls) -> Permutation own (lefts l) ->
  Forall (fun fv => exists T, In (fst fv, T) (own_types decls) /\ typed tenv fok T (snd fv) /\ (need (snd fv) <= c)%nat) own ->
  Forall (fun kx => ~ In (fst kx) (map fst (own_types decls))) (rights l) ->
  enough (fun f => flat_rest tenv f decls (rights l) = CVal (flat, left)) -> (deny = true -> left = []) ->
  exists n, forall f, (n <= f)%nat -> tr e (de_flat tenv f deny sname decls) false false (S (S c)) (c_lc :: w ++ t ++ [c_rc]) anything (VStruct sname (assemble decls own flat)).
Proof.
  intros IT L ND EQ P FO1 FR [m CV] DN.
  destruct (flat_good c l t IT ND) as (n & G); [eapply Permutation_Forall; eassumption|exact FR|].
  exists (Nat.max n m). intros f LF. specialize (G f ltac:(lia)). specialize (CV f ltac:(lia)).
  unfold de_flat. eapply tr_text; [apply tr_de_map with (tb := w ++ t)|texts]. unfold flat_map_body. apply tr_src. intros r HB.
  assert (NDL : NoDup (map fst (lefts l))) by (eapply Permutation_NoDup; [apply Permutation_map; exact P|now rewrite EQ]).
  eapply tr_bind_l with (D1 := begins c_rc) (a := (rev (lefts l), rights l)); [| |now intros r' ->].
  - rewrite <- (app_nil_r (rev (lefts l))). apply tr_flat_loop; auto; [|split; auto].
    assert (H := items_length _ _ _ (good_flat_opens f c) G). rewrite !app_length. unfold str, char in *. lia.
  - cbn [fst snd]. eapply tr_bind_l with (D1 := anything) (a := own); [apply tr_collect, fields_collected; auto| |now intros].
    rewrite CV. destruct deny; [rewrite DN by reflexivity|]; cbn [andb negb]; apply tr_ret.
Qed.
End WithEnv.

(** ** The flattened fields *)
Section Parts.
Context {E : Env}.
Variables (tenv : nat -> ty) (fok : fk -> N -> Prop).
(** what each takes of the collected entries, and what is left *)
Inductive parts : list (str * fdecl) -> list (str * value) -> list val -> list (str * value) -> Prop :=
  | pt_nil l : parts [] l [] l
  | pt_own k t ds l flat left : parts ds l flat left -> parts ((k, FOwn t) :: ds) l flat left
  | pt_struct k name fields ds l fs flat left : NoDup (map fst fields) -> map fst fs = map fst fields ->
      Forall (fun fv => exists t, In (fst fv, t) fields /\ typed tenv fok t (snd fv)) fs ->
      Forall2 (fun fv kx => fst kx = fst fv /\ buffers (snd fv) (snd kx)) fs (filter (named_in fields) l) ->
      parts ds (filter (fun p => negb (named_in fields p)) l) flat left ->
      parts ((k, FStruct name fields) :: ds) l (VStruct name fs :: flat) left
  | pt_map k t ds l es flat left : Forall2 (fun kv kx => fst kv = VStr (fst kx) /\ buffers (snd kv) (snd kx)) es l ->
      Forall (fun kv => typed tenv fok t (snd kv)) es ->
      parts ds l flat left -> parts ((k, FMap t) :: ds) l (VMap es :: flat) left.
Theorem parts_convert ds l flat left : parts ds l flat left -> enough (fun f => flat_rest tenv f ds l = CVal (flat, left)).
Proof.
  induction 1 as [l|k t ds l flat left _ IH|k name fields ds l fs flat left ND EQ FT F2 _ IH|k t ds l es flat left F2 FT _ IH].
  - now apply enough_all.
  - exact IH.
  - assert (CF : enough (fun f => content_fields tenv (of_owned tenv f) false fields (map str_keyed (filter (named_in fields) l)) = CVal fs)).
    { apply (fields_typed tenv fok (of_owned tenv) buffers false fields fs); auto.
      - clear -F2. induction F2 as [|fv kx fs l' [H1 H2] _ IH]; cbn [map]; constructor; [|exact IH]. unfold str_keyed. cbn [fst snd]. now rewrite H1.
      - intros v x T B HT. now apply (buffers_owned tenv fok v x T B). }
    eapply enough_mono; [|exact (enough_and _ _ CF IH)]. cbn beta. intros f [H1 H2]. cbn [flat_rest]. rewrite H1. cbn [cbind]. rewrite H2. reflexivity.
  - assert (CE : enough (fun f => all_entries (of_content tenv f TStr) (of_content tenv f t) (map str_keyed l) = CVal es)).
    { clear -F2 FT. induction F2 as [|kv kx es l' [H1 H2] _ IH]; [now apply enough_all|]. inversion FT as [|? ? HT FT']; subst.
      assert (CK : enough (fun f => of_content tenv f TStr (XStr (fst kx)) = CVal (fst kv))) by (apply enough_S, enough_all; intros f; cbn [of_content content_step]; now rewrite H1).
      eapply enough_mono; [|exact (enough_and _ _ CK (enough_and _ _ (buffers_convert tenv fok _ _ H2 t HT) (IH FT')))]. cbn beta.
      intros f (Q1 & Q2 & Q3). change (map str_keyed (kx :: l')) with ((XStr (fst kx), snd kx) :: map str_keyed l'). cbn [all_entries]. rewrite Q1. cbn [cbind]. rewrite Q2. cbn [cbind]. rewrite Q3. cbn [cbind]. now destruct kv. }
    eapply enough_mono; [|exact (enough_and _ _ CE IH)]. cbn beta. intros f [H1 H2]. cbn [flat_rest]. rewrite H1. cbn [cbind]. rewrite H2. reflexivity.
Qed.
End Parts.
