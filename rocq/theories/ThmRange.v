(** C36, C37: compact ranges.  [ranges_ok], [numeric_range] and [range_named]
    are in [RangeSpec], [typed] in [Repr], [num_text_of] in [SerNum]. *)
From Coq Require Import String Ascii NArith ZArith Lia Bool List.
From Coq Require Import ZifyBool ZifyNat ZifyN.
From Verif Require Import Base Facts Value Data Parse De Span Ser EnvOk Layout Lit Attr ShowFacts SerLex LexDoc Repr ReprFacts TypedRead TypedMain RangeSpec SerNum SerWp SerRepr SerOk ThmTyped Toy.
Import ListNotations.
Open Scope N_scope.
Open Scope list_scope.
Open Scope sm_scope.

(** the six ranges over [a] and [b], and their texts from those of the bounds *)
Inductive range_of (text : val -> str) : val -> str -> Prop :=
| ro_range a b : range_of text (VStruct s_Range [(s_start, a); (s_end, b)]) (text a ++ lit ".." ++ text b)
| ro_inclusive a b : range_of text (VStruct s_RangeInclusive [(s_start, a); (s_end, b)]) (text a ++ lit "..=" ++ text b)
| ro_from a : range_of text (VStruct s_RangeFrom [(s_start, a)]) (text a ++ lit "..")
| ro_to b : range_of text (VStruct s_RangeTo [(s_end, b)]) (lit ".." ++ text b)
| ro_to_inclusive b : range_of text (VStruct s_RangeToInclusive [(s_end, b)]) (lit "..=" ++ text b)
| ro_full : range_of text (VUnitStruct s_RangeFull) (lit "..").
(** the fields of a struct *)
Definition bounds (v : val) : list val := match v with VStruct _ fs => map snd fs | _ => [] end.
(** the numbers the serializer was built to write *)
Definition number {E : Env} (v : val) : Prop := match v with VInt k _ => int_supported k = true | VFloat _ _ => True | _ => False end.
(** their types *)
Inductive range_type : ty -> ty -> Prop :=
| rg_range t : range_type t (TStruct true s_Range [(s_start, t); (s_end, t)])
| rg_inclusive t : range_type t (TStruct true s_RangeInclusive [(s_start, t); (s_end, t)])
| rg_from t : range_type t (TStruct true s_RangeFrom [(s_start, t)])
| rg_to t : range_type t (TStruct true s_RangeTo [(s_end, t)])
| rg_to_inclusive t : range_type t (TStruct true s_RangeToInclusive [(s_end, t)])
| rg_full t : range_type t (TUnitStruct s_RangeFull).

Definition range_conf (sfx names : bool) : pconf :=
  PConf None [10] [32;32] [32] names false false exts_empty false true true false sfx None true.

Section Proofs.
Context {E : Env} {X : XidOk E} {FO : FloatOk E}.

Lemma emits_bound cfg v n : number v -> as_number v = Some n -> emits (ser_num cfg n) (num_text_of cfg v).
Proof.
  destruct v; cbn [as_number number]; try discriminate; intros NU H; injection H as <-; cbn [ser_num num_text_of].
  - now apply emits_int.
  - apply emits_float.
Qed.
Lemma number_as v : number v -> exists n, as_number v = Some n.
Proof. destruct v; try contradiction; cbn; eauto. Qed.

(** what is written is the range, and nothing besides the attributes; the
    state is as it was but for the recursion limit *)
Definition leaves (m : SM unit) (t : str) : Prop := forall s, w_cap s = None -> exists s', m s = SOk tt s' /\ w_out s' = w_out s ++ t.
Lemma leaves_ext m m' t : (forall s, m s = m' s) -> leaves m' t -> leaves m t.
Proof. intros H L s C. rewrite H. auto. Qed.
Lemma leaves_emits m k t u : emits m t -> leaves k u -> leaves (m ;~ k) (t ++ u).
Proof.
  intros EM L s C. unfold sbind. rewrite (EM s C). destruct (L (sset_out (w_out s ++ t) s)) as (s' & -> & Q); [assumption|].
  exists s'. split; [reflexivity|]. rewrite Q. cbn. now rewrite app_assoc.
Qed.
Lemma leaves_drop : leaves drop_compound [].
Proof. intros s C. eexists. split; [reflexivity|]. cbn. now rewrite app_nil_r. Qed.
Lemma leaves_mod k t : leaves k t -> leaves (smod (fun s => sset_isd 0 (sset_nt false s)) ;~ k) t.
Proof. intros L s C. unfold sbind, smod. apply (L (sset_isd 0 (sset_nt false s))). exact C. Qed.
Lemma range_leaves o cfg v t : compact_ranges cfg = true -> range_of (num_text_of cfg) v t -> all number (bounds v) -> leaves (ser o cfg v) t.
Proof.
  intros CR RO NU.
  destruct RO; cbn [bounds map snd all fold_right] in NU; cbn [ser].
  1-5: unfold range_kind_of; rewrite CR; cbn [length Nat.eqb].
  - destruct NU as (N1 & N2 & _). destruct (number_as _ N1) as [n1 A1]. destruct (number_as _ N2) as [n2 A2]. apply leaves_mod.
    apply leaves_ext with (m' := ser_num cfg n1 ;~ write s_dotdot ;~ ser_num cfg n2 ;~ drop_compound).
    { intros s. unfold range_field. rewrite A1, A2. transitivity (range_close cfg RKRange (RBuf (Some (s_start, n1)) (Some (s_end, n2))) s); [reflexivity|].
      cbn [range_close write_buffered]. rewrite sbind_assoc. apply sbind_ext; [reflexivity|]. intros _ s1. rewrite sbind_assoc. reflexivity. }
    apply leaves_emits; [now apply emits_bound|]. apply leaves_emits; [apply emits_write|]. rewrite <- (app_nil_r (num_text_of cfg b)).
    apply leaves_emits; [now apply emits_bound|apply leaves_drop].
  - destruct NU as (N1 & N2 & _). destruct (number_as _ N1) as [n1 A1]. destruct (number_as _ N2) as [n2 A2]. apply leaves_mod.
    apply leaves_ext with (m' := ser_num cfg n1 ;~ write s_dotdoteq ;~ ser_num cfg n2 ;~ drop_compound).
    { intros s. unfold range_field. rewrite A1, A2. transitivity (range_close cfg RKInclusive (RBuf (Some (s_start, n1)) (Some (s_end, n2))) s); [reflexivity|].
      cbn [range_close write_buffered]. rewrite sbind_assoc. apply sbind_ext; [reflexivity|]. intros _ s1. rewrite sbind_assoc. reflexivity. }
    apply leaves_emits; [now apply emits_bound|]. apply leaves_emits; [apply emits_write|]. rewrite <- (app_nil_r (num_text_of cfg b)).
    apply leaves_emits; [now apply emits_bound|apply leaves_drop].
  - destruct NU as (N1 & _). destruct (number_as _ N1) as [n1 A1]. apply leaves_mod.
    apply leaves_ext with (m' := ser_num cfg n1 ;~ write s_dotdot ;~ drop_compound).
    { intros s. unfold range_field. rewrite A1. transitivity (range_close cfg RKFrom (RBuf (Some (s_start, n1)) None) s); [reflexivity|].
      cbn [range_close write_buffered]. rewrite sbind_assoc. reflexivity. }
    apply leaves_emits; [now apply emits_bound|]. rewrite <- (app_nil_r (lit "..")). apply leaves_emits; [apply emits_write|apply leaves_drop].
  - destruct NU as (N1 & _). destruct (number_as _ N1) as [n1 A1]. apply leaves_mod.
    apply leaves_ext with (m' := write s_dotdot ;~ ser_num cfg n1 ;~ drop_compound).
    { intros s. unfold range_field. rewrite A1. transitivity (range_close cfg RKTo (RBuf (Some (s_end, n1)) None) s); [reflexivity|].
      cbn [range_close write_buffered]. rewrite sbind_assoc. reflexivity. }
    apply leaves_emits; [apply emits_write|]. rewrite <- (app_nil_r (num_text_of cfg b)). apply leaves_emits; [now apply emits_bound|apply leaves_drop].
  - destruct NU as (N1 & _). destruct (number_as _ N1) as [n1 A1]. apply leaves_mod.
    apply leaves_ext with (m' := write s_dotdoteq ;~ ser_num cfg n1 ;~ drop_compound).
    { intros s. unfold range_field. rewrite A1. transitivity (range_close cfg RKToInclusive (RBuf (Some (s_end, n1)) None) s); [reflexivity|].
      cbn [range_close write_buffered]. rewrite sbind_assoc. reflexivity. }
    apply leaves_emits; [apply emits_write|]. rewrite <- (app_nil_r (num_text_of cfg b)). apply leaves_emits; [now apply emits_bound|apply leaves_drop].
  - unfold ser_unit_struct. rewrite CR. intros s C. eexists. split; [now apply emits_write|reflexivity].
Qed.
(** C36: a range of numbers is written in range syntax *)
Theorem C36_written o cfg v t : valid_config cfg -> compact_ranges cfg = true -> range_of (num_text_of cfg) v t -> all number (bounds v) ->
  exists a x, to_string o cfg v = inl (a ++ t) /\ attrs_text a x /\ exts_or x (o_exts o) = extensions o cfg.
Proof.
  intros VC CR RO NU. destruct (emits_new o cfg VC) as (a & x & EA & HA & EX). exists a, x. split; [|auto].
  assert (L := leaves_emits _ _ _ _ EA (range_leaves o cfg v t CR RO NU)). destruct (L (ser_init o cfg None) eq_refl) as (s' & EQ & OUT).
  unfold to_string, to_writer. rewrite EQ, OUT. reflexivity.
Qed.
(** C36: and read back, at the same type.  Without number suffixes, an f32
    bound must survive being read as an f64 and narrowed; a float before the
    dots must not be written inf or NaN. *)
Theorem C36_round_trip tenv o cfg t T v : valid_config cfg -> compact_ranges cfg = true -> widens -> room (need v) (o_limit o) ->
  (exists k, t = TInt k /\ int_supported k = true) \/ (exists k, t = TFloat k) -> range_type t T -> typed tenv float_val T v ->
  (forall b, In (VFloat F32 b) (bounds v) -> number_suffixes cfg = true \/ exists b', f_read F64 (float_text F32 b) = Some b' /\ f_narrow b' = b) ->
  (forall a b k z, bounds v = [a; b] -> a = VFloat k z -> f_finite k z \/ f_sign k z = true) ->
  exists text, to_string o cfg v = inl text /\
  exists n, forall f, (n <= f)%nat -> options_from_str o (de_ty tenv f T) text = RValue v.
Proof.
  intros VC CR WI RM NT RT TY F32B LD.
  assert (BD : forall w, typed tenv float_val t w -> is_number w = true /\ number w).
  { intros w H. destruct NT as [(k & -> & SU)|(k & ->)]; inversion H; subst; cbn; auto. }
  assert (BF : forall w, In w (bounds v) -> typed tenv float_val t w -> bound_fine (number_suffixes cfg) w).
  { intros w IN H. destruct NT as [(k & -> & SU)|(k & ->)]; inversion H; subst; cbn; auto. destruct k; auto. }
  assert (NR : ranges_ok (extensions o cfg) cfg false v /\ all number (bounds v) /\ clash (extensions o cfg) v = false /\ exists u, range_of (num_text_of cfg) v u).
  { inversion RT; subst T; inversion TY as [| | | | | | | | | | | | | | |deny name fields fs ND MF FA| | | | |]; subst; clear TY; [..|split; [intros _; exact Logic.I|split; [exact Logic.I|split; [reflexivity|eexists; constructor]]]].
    1-2: destruct fs as [|[k1 v1] [|[k2 v2] [|]]]; try discriminate; injection MF as -> ->; apply Forall_inv in FA as H1; apply Forall_inv_tail, Forall_inv in FA as H2;
      destruct H1 as (t1 & IN1 & T1); destruct H2 as (t2 & IN2 & T2); cbn [fst snd] in *;
      assert (t1 = t) as -> by (destruct IN1 as [Q|[Q|[]]]; congruence); assert (t2 = t) as -> by (destruct IN2 as [Q|[Q|[]]]; congruence);
      destruct (BD _ T1) as [I1 N1]; destruct (BD _ T2) as [I2 N2]; cbn [bounds map snd] in *;
      (split; [|split; [cbn; auto|split; [destruct v1, v2; try discriminate; reflexivity|eexists; constructor]]]);
      intros _; cbn [range_fine];
      match goal with |- if ?c then _ else _ => assert (c = true) as -> by (unfold numeric_range; cbn [forallb snd]; rewrite I1, I2; reflexivity) end;
      (split; [exact WI|]); (split; [cbn; split; [|split; [|exact Logic.I]]; apply BF; cbn; auto|]);
      (destruct v1; try exact Logic.I; cbn [leads]; eapply LD; reflexivity).
    all: destruct fs as [|[k1 v1] [|]]; try discriminate; injection MF as ->; apply Forall_inv in FA as H1;
      destruct H1 as (t1 & IN1 & T1); cbn [fst snd] in *; assert (t1 = t) as -> by (destruct IN1 as [Q|[]]; congruence);
      destruct (BD _ T1) as [I1 N1]; cbn [bounds map snd] in *;
      (split; [|split; [cbn; auto|split; [destruct v1; try discriminate; reflexivity|eexists; constructor]]]);
      intros _; cbn [range_fine];
      match goal with |- if ?c then _ else _ => assert (c = true) as -> by (unfold numeric_range; cbn [forallb snd]; rewrite I1; reflexivity) end;
      (split; [exact WI|]); (split; [cbn; split; [|exact Logic.I]; apply BF; cbn; auto|exact Logic.I]). }
  destruct NR as (NR & NB & CL & u & RO). destruct (C36_written o cfg v u VC CR RO NB) as (a & x & TS & _).
  exists (a ++ u). split; [exact TS|]. now apply (round_trip_limit tenv o cfg T v (a ++ u)).
Qed.

Lemma named_kind cfg n len : compact_ranges cfg = true -> range_named n len = true -> exists rk, range_kind_of cfg n len = Some rk.
Proof.
  intros CR RN. unfold range_kind_of. rewrite CR. unfold range_named, ranges in RN. cbn [existsb fst snd length] in RN.
  destruct (Nat.eqb len 2) eqn:L2; [|destruct (Nat.eqb len 1); [|rewrite !andb_false_r in RN; discriminate]].
  - apply Nat.eqb_eq in L2 as ->. cbn [Nat.eqb] in RN. rewrite ?andb_true_r, ?andb_false_r, ?orb_false_r in RN.
    destruct (str_eqb n s_Range); [eauto|]. destruct (str_eqb n s_RangeInclusive); [eauto|discriminate].
  - rewrite ?andb_true_r, ?andb_false_r, ?orb_false_r in RN. cbn [orb] in RN.
    destruct (str_eqb n s_RangeFrom); [eauto|]. destruct (str_eqb n s_RangeTo); [eauto|]. destruct (str_eqb n s_RangeToInclusive); [eauto|discriminate].
Qed.
Lemma range_as_struct o cfg n m fs s : compact_ranges cfg = true -> struct_names o cfg = false ->
  range_named n (length fs) = true -> numeric_range n fs = false ->
  range_named m (length fs) = false -> valid_identifier m = true -> s_nt s = false ->
  ser o cfg (VStruct n fs) s = ser o cfg (VStruct m fs) s.
Proof.
  intros CR SN RN NN RM VM NT. cbn [ser].
  destruct (range_kind_named cfg m (length fs)) as [->|[_ H]]; [|congruence].
  destruct (named_kind cfg n _ CR RN) as [rk RK]. rewrite RK.
  transitivity ((smod (fun s => sset_isd 0 (sset_nt false s)) ;~ fall_back o cfg fs) s).
  { transitivity ((smod (fun s => sset_isd 0 (sset_nt false s)) ;~ range_ser o cfg rk fs) s); [reflexivity|].
    apply sbind_ext; [reflexivity|]. intros _ s1. now apply range_falls with n. }
  unfold struct_open, fall_back. rewrite SN. unfold validate_identifier. rewrite VM. rewrite !sbind_assoc.
  set (F := fix go (fs : list (str * val)) (c : bool) : SM bool := match fs with [] => sret c | (k, v) :: fs' => c' <~ struct_field cfg c k (ser o cfg v) ;; go fs' c' end).
  unfold sbind, sget, smod, sret. rewrite NT. destruct (write [c_lp] _); try reflexivity. destruct (open_wide _ _ _ _); reflexivity.
Qed.
(** C37: a range over anything else is written as any other struct with those
    fields, of which the name is not written *)
Theorem C37_written o cfg n m fs : compact_ranges cfg = true -> struct_names o cfg = false ->
  range_named n (length fs) = true -> numeric_range n fs = false ->
  range_named m (length fs) = false -> valid_identifier m = true ->
  to_string o cfg (VStruct n fs) = to_string o cfg (VStruct m fs).
Proof.
  intros CR SN RN NN RM VM. unfold to_string, to_writer.
  match goal with |- match ?l with _ => _ end = match ?r with _ => _ end => assert (EQ : l = r); [|now rewrite EQ] end.
  assert (D : valid_config cfg \/ ~ valid_config cfg).
  { unfold valid_config, ws_str. destruct cfg as [p|]; [|auto].
    destruct (forallb is_ws_char (p_new_line p)), (forallb is_ws_char (p_indentor p)), (forallb is_ws_char (p_separator p)); (left; now repeat split) || (right; intros (A1 & A2 & A3); discriminate). }
  destruct D as [VC|VC].
  - destruct (emits_new o cfg VC) as (a & x & EA & _). unfold sbind. rewrite EA by reflexivity. now apply range_as_struct.
  - unfold sbind. now rewrite (new_refused o cfg None VC).
Qed.
(** C37: it is read back, unless explicit_struct_names is on; nested ranges are
    as [ranges_ok] says *)
Theorem C37_round_trip tenv o cfg n fs T text : valid_config cfg -> room (need (VStruct n fs)) (o_limit o) ->
  numeric_range n fs = false -> x_explicit_struct_names (extensions o cfg) = false ->
  (forall k v, In (k, v) fs -> ranges_ok (extensions o cfg) cfg false v) -> clash (extensions o cfg) (VStruct n fs) = false ->
  typed tenv float_val T (VStruct n fs) -> to_string o cfg (VStruct n fs) = inl text ->
  exists n', forall f, (n' <= f)%nat -> options_from_str o (de_ty tenv f T) text = RValue (VStruct n fs).
Proof.
  intros VC RM NN XN RF CL TY TS. apply (round_trip_limit tenv o cfg T _ text); auto.
  intros CR. cbn [range_fine]. rewrite NN. split; [auto|]. rewrite all_in. intros [k v] IN. exact (RF k v IN CR).
Qed.

(** C36 is false of one f32 and its negative: 7.038531e-26 is written in full,
    read as an f64 half way between two f32s, and narrowed to the even one. *)
Definition f32_text : str := lit "0.00000000000000000000000007038531".
Theorem C36_f32_refuted tenv : f_show F32 363742205 = f32_text -> f_integral F32 363742205 = false ->
  f_read F64 f32_text = Some 4230507875723640832 -> f_narrow 4230507875723640832 = 363742206 ->
  exists text n v v', v = VFloat F32 363742205 /\ v' = VFloat F32 363742206 /\
    to_string opts_default (Some (range_conf false false)) (VStruct s_RangeTo [(s_end, v)]) = inl text /\
    forall f, (n <= f)%nat -> options_from_str opts_default (de_ty tenv f (TStruct true s_RangeTo [(s_end, TFloat F32)])) text =
      RValue (VStruct s_RangeTo [(s_end, v')]).
Proof.
  intros SH IN RD NW.
  assert (TX : float_text F32 363742205 = f32_text) by (unfold float_text; rewrite IN, SH; reflexivity).
  assert (PT : pointed f32_text) by (apply (pt_fraction [] false (lit "0") (lit "00000000000000000000000007038531") []); try discriminate; try reflexivity; constructor).
  assert (B : bound (VFloat F32 363742206) f32_text).
  { assert (NT := n_float _ _ PT RD). unfold least_float in NT. rewrite <- NW.
    destruct (_ =? _); [now apply b_float|now apply b_narrow]. }
  destruct (typed_document (fun _ => True) tenv float_val opts_default (TStruct true s_RangeTo [(s_end, TFloat F32)])
    (VStruct s_RangeTo [(s_end, VFloat F32 363742206)]) [] [] exts_empty (lit ".." ++ f32_text) []) as (n & H).
  - constructor.
  - constructor.
  - apply r_range; [exact Logic.I|]. now apply rt_to.
  - now left; constructor.
  - apply ty_struct; [repeat constructor; cbn; tauto|reflexivity|]. constructor; [|constructor]. eexists. split; [left; reflexivity|]. constructor. split; reflexivity.
  - cbn. lia.
  - exists (lit ".." ++ f32_text), n, (VFloat F32 363742205), (VFloat F32 363742206). split; [reflexivity|]. split; [reflexivity|]. split.
    + destruct (range_leaves opts_default (Some (range_conf false false)) _ _ eq_refl (ro_to (num_text_of (Some (range_conf false false))) (VFloat F32 363742205))
        ltac:(cbn; auto) (ser_init opts_default (Some (range_conf false false)) None) eq_refl) as (s' & EQ & OUT).
      unfold to_string, to_writer, sbind. replace (ser_new _ _ _) with (SOk tt (ser_init opts_default (Some (range_conf false false)) None)) by reflexivity.
      rewrite EQ, OUT. cbn [num_text_of]. rewrite TX. reflexivity.
    + intros f LF. specialize (H f LF). rewrite app_nil_r in H. exact H.
Qed.
End Proofs.
Print Assumptions C36_written.
Print Assumptions C36_round_trip.
Print Assumptions C36_f32_refuted.
Print Assumptions C37_written.
Print Assumptions C37_round_trip.

(** ** Examples and refutations *)
#[local] Existing Instance Toy.
#[local] Existing Instance toy_xid.
#[local] Existing Instance toy_float.

Definition ex_range (k : ik) (a b : Z) : val := VStruct s_RangeInclusive [(s_start, VInt k a); (s_end, VInt k b)].
Example C36_ex : valid_config (Some (range_conf false true)) /\
  to_string opts_default (Some (range_conf false true)) (ex_range I8 (-3) 12) = inl (lit "-3..=12") /\
  range_of (num_text_of (Some (range_conf false true))) (ex_range I8 (-3) 12) (lit "-3..=12") /\
  options_from_str opts_default (de_ty no_refs 9 (TStruct true s_RangeInclusive [(s_start, TInt I8); (s_end, TInt I8)])) (lit "-3..=12") = RValue (ex_range I8 (-3) 12).
Proof. split; [vm_compute; auto|]. split; [vm_compute; reflexivity|]. split; [exact (ro_inclusive (num_text_of (Some (range_conf false true))) (VInt I8 (-3)) (VInt I8 12))|vm_compute; reflexivity]. Qed.
Example C36_round_trip_ex : widens /\ number (VInt I8 (-3)) /\
  range_type (TInt I8) (TStruct true s_RangeInclusive [(s_start, TInt I8); (s_end, TInt I8)]) /\
  typed no_refs float_val (TStruct true s_RangeInclusive [(s_start, TInt I8); (s_end, TInt I8)]) (ex_range I8 (-3) 12).
Proof.
  split; [|split; [reflexivity|split; [constructor|]]].
  - intros [] t f H; [now right|]. left. destruct H; reflexivity.
  - apply ty_struct; [apply nodup_str; reflexivity|reflexivity|]. repeat constructor; eexists; (split; [cbn; auto|now constructor]).
Qed.
Example C36_float_ex : to_string opts_default (Some (range_conf true false)) (VStruct s_RangeTo [(s_end, VFloat F32 7)]) = inl (lit "..7.0f32") /\
  options_from_str opts_default (de_ty no_refs 9 (TStruct true s_RangeTo [(s_end, TFloat F32)])) (lit "..7.0f32") = RValue (VStruct s_RangeTo [(s_end, VFloat F32 7)]).
Proof. vm_compute. auto. Qed.
Definition char_range : val := VStruct s_Range [(s_start, VChar 97); (s_end, VChar 98)].
Definition char_range_ty : ty := TStruct true s_Range [(s_start, TChar); (s_end, TChar)].
Lemma char_range_typed tenv : typed tenv float_val char_range_ty char_range.
Proof. apply ty_struct; [apply nodup_str; reflexivity|reflexivity|]. repeat constructor; eexists; (split; [cbn; auto|now constructor]). Qed.
Example C37_ex : range_named s_Range 2 = true /\ numeric_range s_Range [(s_start, VChar 97); (s_end, VChar 98)] = false /\
  range_named (lit "S") 2 = false /\ valid_identifier (lit "S") = true /\
  to_string opts_default (Some (range_conf false false)) char_range = inl (lit "(start: 'a', end: 'b')") /\
  options_from_str opts_default (de_ty no_refs 9 char_range_ty) (lit "(start: 'a', end: 'b')") = RValue char_range.
Proof. vm_compute. auto 10. Qed.

(** C36 is false of a range that starts at infinity or a NaN *)
Theorem C36_inf_refuted : exists v text er sp,
  typed no_refs float_val (TStruct true s_Range [(s_start, TFloat F64); (s_end, TFloat F64)]) v /\
  to_string opts_default (Some (range_conf false false)) v = inl text /\ text = lit "inf..1.0" /\
  options_from_str opts_default (de_ty no_refs 9 (TStruct true s_Range [(s_start, TFloat F64); (s_end, TFloat F64)])) text = RError er sp.
Proof.
  exists (VStruct s_Range [(s_start, VFloat F64 (f_inf F64)); (s_end, VFloat F64 1)]), (lit "inf..1.0"). eexists _, _.
  split; [|vm_compute; auto]. apply ty_struct; [apply nodup_str; reflexivity|reflexivity|].
  repeat constructor; eexists; (split; [cbn; auto|]); apply ty_float; split; reflexivity.
Qed.
(** C37 is false under explicit_struct_names: the name is not written *)
Theorem C37_explicit_refuted : exists o v text er sp,
  typed no_refs float_val char_range_ty v /\ to_string o (Some (range_conf false false)) v = inl text /\ x_explicit_struct_names (o_exts o) = true /\
  text = lit "(start: 'a', end: 'b')" /\ options_from_str o (de_ty no_refs 9 char_range_ty) text = RError er sp.
Proof.
  exists (Opts (Exts false false false true) None), char_range, (lit "(start: 'a', end: 'b')"). eexists _, _.
  split; [apply char_range_typed|vm_compute; auto].
Qed.
(** and under unwrap_variant_newtypes, inside of a newtype variant *)
Theorem C37_variant_refuted : exists o ty v text er sp,
  typed no_refs float_val ty v /\ to_string o (Some (range_conf false false)) v = inl text /\ x_unwrap_variant_newtypes (o_exts o) = true /\
  text = lit "A((start: 'a', end: 'b'))" /\ options_from_str o (de_ty no_refs 9 ty) text = RError er sp.
Proof.
  exists (Opts (Exts false false true false) None), (TEnum (lit "E") [(lit "A", WNew char_range_ty)]), (VNewVariant (lit "E") (lit "A") char_range), (lit "A((start: 'a', end: 'b'))"). eexists _, _.
  split; [|vm_compute; auto]. eapply ty_new_variant; [apply nodup_str; reflexivity|left; reflexivity|apply char_range_typed].
Qed.
(** an environment with that number *)
Definition Narrow : Env := {|
  xid_start := xid_start; xid_continue := xid_continue; grapheme_extended := grapheme_extended; printable := printable;
  f_show := fun k b => match k with F32 => if b =? 363742205 then f32_text else f_show k b | F64 => f_show k b end;
  f_read := fun k s => if str_eqb s f32_text then Some (match k with F32 => 363742205 | F64 => 4230507875723640832 end) else f_read k s;
  f_integral := fun k b => match k with F32 => negb (b =? 363742205) && f_integral k b | F64 => f_integral k b end;
  f_narrow := fun b => if b =? 4230507875723640832 then 363742206 else f_narrow b;
  f_widen := f_widen;
  f_of_int := f_of_int; int128 := int128 |}.
Example C36_f32_ex : XidOk Narrow /\ FloatOk Narrow /\
  @f_show Narrow F32 363742205 = f32_text /\ @f_integral Narrow F32 363742205 = false /\
  @f_read Narrow F64 f32_text = Some 4230507875723640832 /\ @f_narrow Narrow 4230507875723640832 = 363742206.
Proof.
  split; [destruct toy_xid; constructor; assumption|]. split; [|auto]. destruct toy_float as [SN SI SF NI RF R1 R2 R3 R4]. constructor; cbn [f_show f_read f_integral Narrow].
  - intros [] b H; [|auto]. destruct (N.eqb_spec b 363742205) as [->|]; [discriminate|auto].
  - intros [] b H; [|auto]. destruct (N.eqb_spec b 363742205) as [->|]; [discriminate|auto].
  - intros [] b H; [|auto]. destruct (N.eqb_spec b 363742205) as [->|]; [|now apply SF]. exists (lit "0"), (lit "00000000000000000000000007038531"). repeat split; discriminate.
  - intros [] b H; [|auto]. destruct (N.eqb_spec b 363742205) as [->|]; [elim H; reflexivity|]. cbn [negb andb]. auto.
  - intros k b H. assert (R := RF k b H). assert (NE : f_show k b ++ f_point_zero (f_integral k b) <> f32_text).
    { change (f_show k b) with (toy_show k b). assert (IT : f_integral k b = true) by (destruct H; cbn; lia). rewrite IT.
      cbn [f_point_zero]. intros EQ. apply (f_equal (@rev N)) in EQ. rewrite rev_app_distr in EQ. discriminate. }
    destruct k; [destruct (N.eqb_spec b 363742205) as [->|]; [reflexivity|]|]; cbn [negb andb];
      destruct (str_eqb _ (f32_text)) eqn:Q; [apply str_eqb_eq in Q; contradiction|exact R|apply str_eqb_eq in Q; contradiction|exact R].
  - intros []; reflexivity.
  - intros []; reflexivity.
  - intros []; reflexivity.
  - intros []; reflexivity.
Qed.
