(** C62: reformatting a document: reading it as a ron::Value and writing that
    Value again, ron-utils style ([from_str::<Value>] followed by
    [to_string_pretty]). *)
From Coq Require Import String Ascii NArith ZArith Lia Bool List Permutation.
From Coq Require Import ZifyBool ZifyNat ZifyN.
From Verif Require Import Base Facts Value Data Parse De Span Ser Wp EnvOk Layout Lit Attr LexDoc DocSafe SerLex Typing Typed ValueFacts Repr ReprFacts TypedRead VRepr RangeSpec SerRepr ThmTyped ThmAny ThmUnwrap Toy.
Import ListNotations.
Open Scope N_scope.
Open Scope list_scope.
Open Scope m_scope.

Section WithEnv.
Context {E : Env} {X : XidOk E} {FO : FloatOk E}.

(** src/options.rs:107-124 (from_str) at Value, then 265-296 (to_string,
    to_string_pretty) *)
Definition read_value (o : opts) (text : str) : result val := options_from_str o (de_ty (fun _ => TUnit) 1 TAny) text.
Definition reformat (o : opts) (cfg : option pconf) (text : str) : option str :=
  match read_value o text with
  | RValue v => match to_string o cfg v with inl t => Some t | inr _ => None end
  | _ => None
  end.

(** ** What has been read is a Value: its maps are sorted *)
Lemma map_of_list_from l k v : In (k, v) (map_of_list l) -> (exists w, In (k, w) l) /\ (exists j, In (j, v) l).
Proof.
  unfold map_of_list.
  assert (Y : forall l acc, In (k, v) (fold_left (fun m kv => snd (map_insert (fst kv) (snd kv) m)) l acc) ->
    ((exists w, In (k, w) l) \/ exists w, In (k, w) acc) /\ ((exists j, In (j, v) l) \/ exists j, In (j, v) acc)).
  { clear l. intros l. induction l as [|[a b] l IH]; intros acc I1; [split; right; eauto|]. cbn [fold_left fst snd] in I1.
    apply IH in I1 as [[(w & I1)|(w & I1)] [(j & I2)|(j & I2)]]; split; eauto using in_cons;
    try (apply insert_in in I1 as [[->|[w' I1]] _]); try (apply insert_in in I2 as [_ [->|I2]]); eauto using in_cons, in_eq. }
  intros I1. apply Y in I1 as [[I1|(? & [])] [I2|(? & [])]]. now split.
Qed.
Lemma norm_proper x : wf_value x -> proper (norm x).
Proof.
  induction x as [x F|x IH|l IH|m IH] using value_ind'; intros W.
  - constructor. now destruct x.
  - cbn [norm]. apply pr_some. now apply IH.
  - cbn [norm]. apply pr_seq. apply wf_seq in W. rewrite all_in in IH. rewrite Forall_forall in *.
    intros y [z [<- I1]]%in_map_iff. auto.
  - cbn [norm]. apply wf_map in W. apply pr_map; [|apply map_of_list_good; now apply norm_entries].
    rewrite all_in in IH. rewrite Forall_forall in *. intros [k v] IN. apply map_of_list_from in IN as [[w I1] [j I2]].
    apply in_map_iff in I1 as ([k0 w0] & [= <- _] & I1). apply in_map_iff in I2 as ([j0 v0] & [= _ <-] & I2). cbn [fst snd].
    split; [apply (IH _ I1), (W _ I1)|apply (IH _ I2), (W _ I2)].
Qed.
Lemma read_a_value : FloatIn float_val -> forall o text v, wf_str text -> read_value o text = RValue v ->
  exists x, v = embed x /\ a_value x.
Proof.
  intros FI o text v W. unfold read_value. apply (g_document o _ (fun v => exists x, v = embed x /\ a_value x)); [exact W|]. cbn [de_ty de_step].
  eapply g_bind; [apply g_any_value|]. intros x OK. apply g_ret. exists (norm x). split; [reflexivity|].
  split; [now apply norm_any_ok|]. apply norm_proper. now apply any_ok_wf.
Qed.
Lemma embed_need x : need (embed x) = vneed x.
Proof.
  induction x as [x F|x IH|l IH|m IH] using value_ind'; [now destruct x as [| | |[]| | | | | |]|cbn; now rewrite IH| |];
  rewrite all_in in IH; cbn [embed need vneed]; rewrite map_map; apply (f_equal (fun l => 2 + max_list l)%nat); apply map_ext_in; intros y IN; specialize (IH y IN); cbn; auto.
  destruct IH as [-> ->]. reflexivity.
Qed.
Lemma somes_all (P : Prop) x : P -> somes P x.
Proof.
  intros H. induction x as [x F|x IH|l IH|m IH] using value_ind'; cbn [somes]; auto. destruct x; exact Logic.I || contradiction.
Qed.

(** C62: what is written for the Value that was read is read as the same Value *)
Theorem C62_preserves o cfg text v t : FloatIn float_val -> valid_config cfg -> number_suffixes cfg = true ->
  x_implicit_some (extensions o cfg) = false -> wf_str text ->
  read_value o text = RValue v -> room (need v) (o_limit o) ->
  to_string o cfg v = inl t -> read_value o t = RValue v.
Proof.
  intros FI VC SX IS W RD RM TS. destruct (read_a_value FI o text v W RD) as (x & -> & AV). rewrite embed_need in RM.
  exact (C14_value_round_trip_partial (fun _ => TUnit) 0 o cfg x t VC (somes_all _ x IS) SX AV RM TS).
Qed.
(** C62: reformatting a second time changes nothing *)
Theorem C62_idempotent o cfg text v t : FloatIn float_val -> valid_config cfg -> number_suffixes cfg = true ->
  x_implicit_some (extensions o cfg) = false -> wf_str text ->
  read_value o text = RValue v -> room (need v) (o_limit o) ->
  reformat o cfg text = Some t -> reformat o cfg t = Some t.
Proof.
  intros FI VC SX IS W RD RM. unfold reformat. rewrite RD. destruct (to_string o cfg v) as [t'|] eqn:TS; [|discriminate]. intros [= ->].
  now rewrite (C62_preserves o cfg text v t), TS.
Qed.
End WithEnv.
Print Assumptions C62_preserves.
Print Assumptions C62_idempotent.

(** ** Examples and refutations *)
Lemma signed_abs k a (s : bool) : a < f_signbit k -> f_abs k (a + if s then f_signbit k else 0) = a /\ f_sign k (a + if s then f_signbit k else 0) = s.
Proof.
  intros H. unfold f_abs, f_sign, f_signbit in *. destruct s.
  - split; [rewrite <- (N.mul_1_l (2 ^ _)) at 1; rewrite N.mod_add by (apply N.pow_nonzero; discriminate); now apply N.mod_small|].
    rewrite N.testbit_eqb. rewrite <- (N.mul_1_l (2 ^ _)) at 1. rewrite N.div_add, N.div_small by (assumption || (apply N.pow_nonzero; discriminate)). reflexivity.
  - rewrite N.add_0_r. split; [now apply N.mod_small|]. rewrite N.testbit_eqb, N.div_small by assumption. reflexivity.
Qed.
Lemma vals_intro k a (s : bool) : a <= f_inf k \/ a = f_nan k -> float_val k (a + if s then f_signbit k else 0).
Proof.
  intros H. assert (B : a < f_signbit k) by (destruct k; cbn in *; lia). destruct (signed_abs k a s B) as [A S]. split.
  - destruct k, s; cbn in *; lia.
  - unfold canon, f_is_nan. rewrite A, S. destruct (f_inf k <? a) eqn:L; [|reflexivity]. destruct H as [H| ->]; [lia|reflexivity].
Qed.
Lemma vals_abs k b : float_val k b -> f_abs k b <= f_inf k \/ f_abs k b = f_nan k.
Proof.
  intros [B C]. unfold canon, f_is_nan in C. destruct (f_inf k <? f_abs k b) eqn:L; [|left; lia]. right.
  rewrite <- C. apply signed_abs. destruct k; reflexivity.
Qed.
(** the toy floats, with the integers kept out of the NaNs *)
Definition Vals : Env := let E := Toy in {|
  xid_start := xid_start; xid_continue := xid_continue; grapheme_extended := grapheme_extended; printable := printable;
  f_show := f_show; f_read := f_read; f_integral := f_integral; f_narrow := f_narrow; f_widen := f_widen;
  f_of_int := fun k z => f_of_int k z mod f_inf k; int128 := int128 |}.
#[local] Existing Instance Vals.
Lemma vals_xid : XidOk Vals.
Proof. destruct toy_xid; constructor; assumption. Qed.
Lemma vals_float : FloatOk Vals.
Proof. destruct toy_float; constructor; assumption. Qed.
Lemma vals_in : FloatIn float_val.
Proof.
  assert (NS : forall k a, a <= f_inf k \/ a = f_nan k -> float_val k a).
  { intros k a H. assert (V := vals_intro k a false H). cbn in V. now rewrite N.add_0_r in V. }
  assert (RA : forall k s b, toy_read_abs k s = Some b -> b <= f_inf k \/ b = f_nan k).
  { intros k s b. unfold toy_read_abs. destruct (str_eqb s s_inf); [intros H; injection H as <-; lia|].
    destruct (str_eqb s s_NaN); [intros H; injection H as <-; lia|]. destruct (is_nil _); [discriminate|].
    destruct (_ || _); [|discriminate]. destruct (toy_dec _ _ <? f_inf k) eqn:L; intros H; apply some_inj in H; subst b; lia. }
  constructor.
  - intros k s b H. change (toy_read k s = Some b) in H. unfold toy_read in H. destruct s as [|c s]; [discriminate|].
    destruct (c =? c_minus).
    + destruct (toy_read_abs k s) as [b'|] eqn:R; [|discriminate]. apply RA in R. cbn [option_map] in H. apply some_inj in H. subst b.
      rewrite N.add_comm. exact (vals_intro k b' true R).
    + apply NS. destruct (c =? c_plus); now apply RA in H.
  - intros b V. change (float_val F32 (toy_narrow b)). unfold toy_narrow, toy_sign. apply vals_intro.
    destruct (f_abs F64 b <? f_inf F32) eqn:H1; [left; lia|]. destruct (f_abs F64 b <? f_inf F64) eqn:H2; [left; lia|].
    apply vals_abs in V as [V|V]; [|right; rewrite V; reflexivity]. left.
    replace (f_abs F64 b - f_inf F64) with 0 by lia. cbn. lia.
  - intros b V. change (float_val F64 (toy_widen b)). unfold toy_widen, toy_sign. apply vals_intro.
    destruct (f_abs F32 b <? f_inf F32) eqn:H1; [left; change (f_inf F32) with 2139095040 in H1; change (f_inf F64) with 9218868437227405312; lia|].
    apply vals_abs in V as [V|V]; [|right; rewrite V; reflexivity]. left. replace (f_abs F32 b - f_inf F32) with 0 by lia. cbn. lia.
  - intros k z. change (float_val k (Z.to_N (Z.abs z) mod 2 ^ f_bits k mod f_inf k)). apply NS. left.
    apply N.lt_le_incl, N.mod_lt. destruct k; discriminate.
  - intros k. repeat split; try (apply NS; auto; left; lia).
    + apply (vals_intro k (f_inf k) true). left. lia.
    + apply (vals_intro k (f_inf k) true). left. lia.
    + apply (vals_intro k (f_nan k) true). now right.
    + apply (vals_intro k (f_nan k) true). now right.
Qed.
#[local] Existing Instance vals_xid.
#[local] Existing Instance vals_float.
(** comments go, the last of two equal keys wins, and the keys are sorted *)
Definition ex_text : str := lit "/*c*/(b: 1, a: [-NaN, 0x1F, Some(())], b: None)".
Definition ex_formatted : str := lit "{""a"": [-NaNf32, 31u8, Some(())], ""b"": None}".
Example C62_ex : wf_str ex_text /\ valid_config ex_suffixes /\ number_suffixes ex_suffixes = true /\
  x_implicit_some (extensions opts_default ex_suffixes) = false /\
  (exists v, read_value opts_default ex_text = RValue v /\ room (need v) (o_limit opts_default)) /\
  reformat opts_default ex_suffixes ex_text = Some ex_formatted /\ ex_formatted <> ex_text.
Proof.
  split; [apply wf_lit; reflexivity|]. split; [vm_compute; auto|]. split; [reflexivity|]. split; [reflexivity|].
  split; [eexists; split; [vm_compute; reflexivity|cbn; lia]|]. split; [vm_compute; reflexivity|discriminate].
Qed.
(** without number suffixes two keys may become one, and only the next run notices *)
Theorem C62_keys_refuted : exists text t1 t2, reformat opts_default None text = Some t1 /\ reformat opts_default None t1 = Some t2 /\ t2 <> t1 /\
  exists v1 v2, read_value opts_default text = RValue v1 /\ read_value opts_default t1 = RValue v2 /\ v1 <> v2.
Proof.
  exists (lit "{1u8:true,1u16:false}"), (lit "{1:true,1:false}"), (lit "{1:false}").
  split; [vm_compute; reflexivity|]. split; [vm_compute; reflexivity|]. split; [discriminate|].
  exists (embed (XMap [(XNum (NInt U8 1), XBool true); (XNum (NInt U16 1), XBool false)])), (embed (XMap [(XNum (NInt U8 1), XBool false)])).
  split; [vm_compute; reflexivity|]. split; [vm_compute; reflexivity|discriminate].
Qed.
(** with implicit_some the Somes go *)
Theorem C62_some_refuted : exists o text t1 v1 v2, number_suffixes ex_suffixes = true /\ reformat o ex_suffixes text = Some t1 /\
  read_value o text = RValue v1 /\ read_value o t1 = RValue v2 /\ v1 <> v2.
Proof.
  exists (Opts (Exts false true false false) None), (lit "Some(true)"), (lit "true"), (embed (XSome (XBool true))), (embed (XBool true)).
  split; [reflexivity|]. split; [vm_compute; reflexivity|]. split; [vm_compute; reflexivity|]. split; [vm_compute; reflexivity|discriminate].
Qed.
Print Assumptions C62_keys_refuted.
Print Assumptions C62_some_refuted.
