(** C66: the calls of PrettyConfig, and what each setting is about *)
From Coq Require Import String Ascii NArith ZArith Lia Bool List.
From Verif Require Import Base Facts Value Data Parse De Ser Repr ReprFacts SerWp SerRepr SerLex Conf SerSim SerDepth Toy.
Import ListNotations.
Open Scope list_scope.
Open Scope sm_scope.

(** the value of the last call that [f] selects *)
Fixpoint last_set {A} (f : call -> option A) (cs : list call) (dflt : A) : A :=
  match cs with
  | [] => dflt
  | c :: cs => last_set f cs (match f c with Some x => x | None => dflt end)
  end.

(** C66: a configuration has the settings of the last calls, in whichever order
    they come, and the documented defaults for the rest *)
Theorem C66_last_call cs : let p := configure cs in
  p_depth_limit p = last_set (fun c => match c with SetDepth x => Some x | _ => None end) cs None /\
  p_new_line p = last_set (fun c => match c with SetNewLine x => Some x | _ => None end) cs (lit "
") /\
  p_indentor p = last_set (fun c => match c with SetIndentor x => Some x | _ => None end) cs (lit "    ") /\
  p_separator p = last_set (fun c => match c with SetSeparator x => Some x | _ => None end) cs (lit " ") /\
  p_struct_names p = last_set (fun c => match c with SetStructNames x => Some x | _ => None end) cs false /\
  p_separate_tuple_members p = last_set (fun c => match c with SetTuples x => Some x | _ => None end) cs false /\
  p_enumerate_arrays p = last_set (fun c => match c with SetEnumerate x => Some x | _ => None end) cs false /\
  p_compact_arrays p = last_set (fun c => match c with SetCompactArrays x => Some x | _ => None end) cs false /\
  p_extensions p = last_set (fun c => match c with SetExtensions x => Some x | _ => None end) cs (Exts false false false false) /\
  p_escape_strings p = last_set (fun c => match c with SetEscape x => Some x | _ => None end) cs true /\
  p_compact_structs p = last_set (fun c => match c with SetCompactStructs x => Some x | _ => None end) cs false /\
  p_compact_maps p = last_set (fun c => match c with SetCompactMaps x => Some x | _ => None end) cs false /\
  p_number_suffixes p = last_set (fun c => match c with SetSuffixes x => Some x | _ => None end) cs false /\
  p_compact_ranges p = last_set (fun c => match c with SetCompactRanges x => Some x | _ => None end) cs false /\
  p_path_meta p = None.
Proof.
  assert (G : forall A (sel : pconf -> A) f, (forall c p, sel (apply_call c p) = match f c with Some x => x | None => sel p end) ->
    forall l p, sel (fold_left (fun p c => apply_call c p) l p) = last_set f l (sel p)).
  { intros A sel f H. induction l as [|c l IH]; intros p; cbn [fold_left last_set]; [reflexivity|]. now rewrite IH, H. }
  cbv zeta. unfold configure.
  repeat match goal with |- _ /\ _ => split end; try (erewrite G; [reflexivity|intros c p; destruct p, c; reflexivity]).
  assert (Q : forall p, p_path_meta (fold_left (fun p c => apply_call c p) cs p) = p_path_meta p).
  { clear G. induction cs as [|c l IH]; intros p; cbn [fold_left]; [reflexivity|]. rewrite IH. now destruct p, c. }
  now rewrite Q.
Qed.
Print Assumptions C66_last_call.

(** What a setting is about, by the outermost constructor of a value *)
Definition range_name (n : str) : bool :=
  existsb (str_eqb n) [lit "Range"; lit "RangeInclusive"; lit "RangeFrom"; lit "RangeTo"; lit "RangeToInclusive"].
Definition about (c : call) (v : val) : bool :=
  match c with
  | SetDepth _ | SetNewLine _ | SetIndentor _ | SetSeparator _ =>
      match v with VSeq _ | VTuple _ | VTupleStruct _ _ | VMap _ | VStruct _ _ | VTupVariant _ _ _ | VStructVariant _ _ _ => true | _ => false end
  | SetStructNames _ => match v with VUnitStruct _ | VNewtype _ _ | VTupleStruct _ _ | VStruct _ _ => true | _ => false end
  | SetTuples _ => match v with VTuple _ | VTupleStruct _ _ | VTupVariant _ _ _ => true | _ => false end
  | SetEnumerate _ | SetCompactArrays _ => match v with VSeq _ => true | _ => false end
  | SetExtensions _ => true
  | SetEscape _ => match v with VStr _ | VBytes _ => true | _ => false end
  | SetCompactStructs _ => match v with VStruct _ _ | VStructVariant _ _ _ => true | _ => false end
  | SetCompactMaps _ => match v with VMap _ => true | _ => false end
  | SetSuffixes _ => match v with VInt _ _ | VFloat _ _ => true | VStruct n _ => range_name n | _ => false end
  | SetCompactRanges _ => match v with VStruct n _ => range_name n | VUnitStruct n => str_eqb n (lit "RangeFull") | _ => false end
  end.
(** ... anywhere in a value *)
Fixpoint occurs (c : call) (v : val) : bool :=
  about c v ||
  match v with
  | VSome v | VNewtype _ v | VNewVariant _ _ v => occurs c v
  | VSeq vs | VTuple vs | VTupleStruct _ vs | VTupVariant _ _ vs => existsb (occurs c) vs
  | VMap es => existsb (fun e => occurs c (fst e) || occurs c (snd e)) es
  | VStruct _ fs | VStructVariant _ _ fs => existsb (fun f => occurs c (snd f)) fs
  | _ => false
  end.

Section WithEnv.
Context {E : Env}.
Variable o : opts.
Variable p : pconf.
Variable c : call.
Notation cfg' := (Some (apply_call c p)).
Notation cfg := (Some p).
Ltac cases HA := destruct p, c; try discriminate HA; reflexivity.

Lemma range_kind_other n len : range_name n = false -> range_kind_of cfg' n len = range_kind_of cfg n len.
Proof.
  unfold range_name. cbn [existsb]. rewrite !orb_false_iff. intros (A1 & A2 & A3 & A4 & A5 & _).
  change (str_eqb n s_Range = false) in A1. change (str_eqb n s_RangeInclusive = false) in A2. change (str_eqb n s_RangeFrom = false) in A3.
  change (str_eqb n s_RangeTo = false) in A4. change (str_eqb n s_RangeToInclusive = false) in A5.
  unfold range_kind_of. rewrite A1, A2, A3, A4, A5.
  destruct (compact_ranges cfg'), (compact_ranges cfg), (Nat.eqb len 2), (Nat.eqb len 1); reflexivity.
Qed.
Theorem ser_about v : occurs c v = false -> ser o cfg' v = ser o cfg v.
Proof.
  induction v as [v F|v IH|n v IH|l IH|l IH|n l IH|l IH|n l IH|n k v IH|n k l IH|n k l IH] using val_ind'; intros H;
    [|cbn [occurs] in H; apply orb_false_iff in H; destruct H as [HA HB]..].
  - destruct v; try contradiction; cbn [ser]; apply orb_false_iff in H; destruct H as [HA _]; cbn [about] in HA; try (cases HA).
    destruct p, c; try discriminate HA; try reflexivity. change (str_eqb name s_RangeFull = false) in HA. unfold ser_unit_struct. rewrite HA, !andb_false_r. reflexivity.
  - cbn [ser]. rewrite IH by exact HB. cases HA.
  - cbn [ser]. rewrite IH by exact HB. cases HA.
  - cbn [ser].
    match goal with |- sbind _ (fun _ => sbind (?g l _) _) = sbind _ (fun _ => sbind (?g' l _) _) => assert (G : g l = g' l) end.
    { clear - IH HA HB. induction l as [|v l IHl]; [reflexivity|]. cbn [existsb] in HB. apply orb_false_iff in HB as [B1 B2]. destruct IH as [I1 I2].
      specialize (IHl I2 HA B2). cbv beta iota. rewrite (I1 B1), IHl. cases HA. }
    rewrite G. cases HA.
  - cbn [ser].
    match goal with |- sbind _ (fun _ => sbind (?g l _) _) = sbind _ (fun _ => sbind (?g' l _) _) => assert (G : g l = g' l) end.
    { clear - IH HA HB. induction l as [|v l IHl]; [reflexivity|]. cbn [existsb] in HB. apply orb_false_iff in HB as [B1 B2]. destruct IH as [I1 I2].
      specialize (IHl I2 HA B2). cbv beta iota. rewrite (I1 B1), IHl. cases HA. }
    rewrite G. cases HA.
  - cbn [ser].
    match goal with |- sbind _ (fun _ => sbind (?g l _) _) = sbind _ (fun _ => sbind (?g' l _) _) => assert (G : g l = g' l) end.
    { clear - IH HA HB. induction l as [|v l IHl]; [reflexivity|]. cbn [existsb] in HB. apply orb_false_iff in HB as [B1 B2]. destruct IH as [I1 I2].
      specialize (IHl I2 HA B2). cbv beta iota. rewrite (I1 B1), IHl. cases HA. }
    rewrite G. cases HA.
  - cbn [ser].
    match goal with |- sbind _ (fun _ => sbind (?g l _) _) = sbind _ (fun _ => sbind (?g' l _) _) => assert (G : g l = g' l) end.
    { clear - IH HA HB. induction l as [|[k v] l IHl]; [reflexivity|]. cbn [existsb fst snd] in HB. apply orb_false_iff in HB as [B1 B2]. apply orb_false_iff in B1 as [B0 B1].
      destruct IH as [[I0 I1] I2]. cbn [fst snd] in I0, I1. specialize (IHl I2 HA B2). cbv beta iota. rewrite (I0 B0), (I1 B1), IHl. cases HA. }
    rewrite G. cases HA.
  - cbn [ser]. replace (range_kind_of cfg' n (length l)) with (range_kind_of cfg n (length l)).
    2:{ destruct (range_name n) eqn:R; [|symmetry; now apply range_kind_other]. cbn [about] in HA. destruct p, c; try reflexivity; cbn [about] in HA; congruence. }
    destruct (range_kind_of cfg n (length l)) as [rk|] eqn:RK.
    + assert (RN : range_name n = true).
      { destruct (range_name n) eqn:R; [reflexivity|]. unfold range_name in R. cbn [existsb] in R. rewrite !orb_false_iff in R. destruct R as (A1 & A2 & A3 & A4 & A5 & _).
        change (str_eqb n s_Range = false) in A1. change (str_eqb n s_RangeInclusive = false) in A2. change (str_eqb n s_RangeFrom = false) in A3.
        change (str_eqb n s_RangeTo = false) in A4. change (str_eqb n s_RangeToInclusive = false) in A5.
        unfold range_kind_of in RK. rewrite A1, A2, A3, A4, A5 in RK. destruct (compact_ranges _); [destruct (Nat.eqb _ 2); [|destruct (Nat.eqb _ 1)]|]; discriminate. }
      match goal with |- sbind _ (fun _ => sbind (?g l _) _) = sbind _ (fun _ => sbind (?g' l _) _) => assert (G : g l = g' l) end.
      { clear - IH HA HB RN. induction l as [|[k v] l IHl]; [reflexivity|]. cbn [existsb fst snd] in HB. apply orb_false_iff in HB as [B1 B2].
        destruct IH as [I1 I2]. cbn [fst snd] in I1. specialize (IHl I2 HA B2). cbv beta iota. rewrite (I1 B1), IHl. destruct p, c; try discriminate HA; cbn [about] in HA; try (rewrite RN in HA; discriminate HA); reflexivity. }
      rewrite G. destruct p, c; try discriminate HA; cbn [about] in HA; try (rewrite RN in HA; discriminate HA); reflexivity.
    + match goal with |- sbind _ (fun _ => sbind (?g l _) _) = sbind _ (fun _ => sbind (?g' l _) _) => assert (G : g l = g' l) end.
      { clear - IH HA HB. induction l as [|[k v] l IHl]; [reflexivity|]. cbn [existsb fst snd] in HB. apply orb_false_iff in HB as [B1 B2].
        destruct IH as [I1 I2]. cbn [fst snd] in I1. specialize (IHl I2 HA B2). cbv beta iota. rewrite (I1 B1), IHl. cases HA. }
      rewrite G. cases HA.
  - cbn [ser]. rewrite IH by exact HB. cases HA.
  - cbn [ser].
    match goal with |- sbind _ (fun _ => sbind (?g l _) _) = sbind _ (fun _ => sbind (?g' l _) _) => assert (G : g l = g' l) end.
    { clear - IH HA HB. induction l as [|v l IHl]; [reflexivity|]. cbn [existsb] in HB. apply orb_false_iff in HB as [B1 B2]. destruct IH as [I1 I2].
      specialize (IHl I2 HA B2). cbv beta iota. rewrite (I1 B1), IHl. cases HA. }
    rewrite G. cases HA.
  - cbn [ser].
    match goal with |- sbind _ (fun _ => sbind (?g l _) _) = sbind _ (fun _ => sbind (?g' l _) _) => assert (G : g l = g' l) end.
    { clear - IH HA HB. induction l as [|[k' v] l IHl]; [reflexivity|]. cbn [existsb fst snd] in HB. apply orb_false_iff in HB as [B1 B2].
      destruct IH as [I1 I2]. cbn [fst snd] in I1. specialize (IHl I2 HA B2). cbv beta iota. rewrite (I1 B1), IHl. cases HA. }
    rewrite G. cases HA.
Qed.

(** C66: a setting changes the text of a value only if what it is about occurs
    in the value.  (The new line also ends the lines that enable extensions.) *)
Theorem C66_about v : occurs c v = false -> valid_config cfg -> valid_config cfg' ->
  (forall s, c = SetNewLine s -> p_extensions p = exts_empty) ->
  to_string o cfg' v = to_string o cfg v.
Proof.
  intros H V V' NL. unfold to_string, to_writer. rewrite ser_about by exact H.
  replace (ser_init o cfg' None) with (ser_init o cfg None) by (destruct p, c; reflexivity).
  assert (N : ser_new o cfg' = ser_new o cfg).
  { unfold ser_new. destruct V as (V1 & V2 & V3), V' as (W1 & W2 & W3). unfold ws_str in *. rewrite V1, V2, V3, W1, W2, W3. cbn [negb].
    assert (Q : forall ns, (forall s, c = SetNewLine s -> ns = []) -> write_headers (apply_call c p) ns = write_headers p ns).
    { induction ns as [|n ns IH]; intros Z; [reflexivity|]. cbn [write_headers]. rewrite IH by (intros s K; now apply Z in K).
      destruct p, c as [| s | | | | | | | | | | | |]; try reflexivity. now specialize (Z s eq_refl). }
    replace (p_extensions (apply_call c p)) with (p_extensions p) by (destruct p, c; try reflexivity; destruct v; discriminate H).
    apply Q. intros s K. rewrite (NL s K). reflexivity. }
  now rewrite N.
Qed.
End WithEnv.
Print Assumptions C66_about.

(** C67: depth limits that reach as deep as the value is nested all have the
    same effect, that of none *)
Definition reaches (d : option nat) (n : nat) : Prop := match d with Some d => (n <= d)%nat | None => True end.
Lemma headers_depth d p ns : write_headers (with_depth d p) ns = write_headers p ns.
Proof. induction ns as [|n ns IH]; cbn [write_headers]; [reflexivity|]. now rewrite IH. Qed.
Theorem C67_depth {E : Env} o p d1 d2 v : reaches d1 (levels v) -> reaches d2 (levels v) ->
  to_string o (Some (apply_call (SetDepth d1) p)) v = to_string o (Some (apply_call (SetDepth d2) p)) v.
Proof.
  intros R1 R2. rewrite !set_depth. unfold to_string, to_writer.
  assert (AG : forall n, (n <= levels v)%nat -> within (with_depth d1 (with_depth d2 p)) n = within (with_depth d2 p) n).
  { intros n L. assert (W : forall d q, reaches d (levels v) -> within (with_depth d q) n = true).
    { intros [d|] q R; [|reflexivity]. unfold within. cbn. apply Nat.leb_le. cbn in R. lia. }
    now rewrite !W. }
  assert (T := tw_ser o (with_depth d2 p) d1 (levels v) AG v 0%nat (le_n _)).
  change (with_depth d1 (with_depth d2 p)) with (with_depth d1 p) in T.
  assert (N : ser_new o (Some (with_depth d1 p)) = ser_new o (Some (with_depth d2 p))).
  { unfold ser_new. now rewrite !headers_depth. }
  rewrite N. change (ser_init o (Some (with_depth d1 p)) None) with (ser_init o (Some (with_depth d2 p)) None).
  assert (ST := steady_new o (Some (with_depth d2 p)) 0%nat (ser_init o (Some (with_depth d2 p)) None) eq_refl).
  unfold sbind. destruct (ser_new o (Some (with_depth d2 p)) _) as [u s| |]; auto. destruct (T s ST) as [-> _]. reflexivity.
Qed.
Print Assumptions C67_depth.
(** a limit that is one less may show *)
Theorem C67_less_refuted : exists v p d, levels v = Datatypes.S d /\
  to_string (E := Toy) (Opts (Exts false false false false) None) (Some (apply_call (SetDepth (Some d)) p)) v <> to_string (E := Toy) (Opts (Exts false false false false) None) (Some (apply_call (SetDepth None) p)) v.
Proof.
  exists (VSeq [VMap [(VUnit, VUnit)]]), pconf_default, 1%nat. split; [reflexivity|]. intros Q. vm_compute in Q. discriminate.
Qed.
Print Assumptions C67_less_refuted.

(** Examples *)
#[local] Existing Instance Toy.
Definition a : str := [97%N].
(* arrays and tuples inside a struct: the setting for maps is of no concern, that for arrays is *)
Definition mixed : val := VStruct a [(a, VSeq [VInt U8 1%Z; VInt U8 2%Z]); (a, VTuple [VBool true; VStr a])].
Definition plain := Opts (Exts false false false false) None.
Example C66_ex_about : occurs (SetCompactMaps true) mixed = false /\ occurs (SetSuffixes true) mixed = true /\ valid_config (Some pconf_default)
  /\ to_string plain (Some (configure [SetCompactMaps true])) mixed = to_string plain (Some pconf_default) mixed
  /\ to_string plain (Some (configure [SetCompactArrays true])) mixed <> to_string plain (Some pconf_default) mixed.
Proof.
  split; [reflexivity|]. split; [reflexivity|]. split; [repeat split|]. split.
  - apply C66_about; [reflexivity|repeat split|repeat split|discriminate].
  - intros Q. vm_compute in Q. discriminate.
Qed.
(* calls *)
Example C66_ex_calls : to_string plain (Some (configure [SetIndentor [9%N]; SetCompactArrays false; SetStructNames true; SetCompactArrays true; SetIndentor [32%N]])) mixed = inl (lit
"a(
 a: [1, 2],
 a: (true, ""a""),
)").
Proof. vm_compute. reflexivity. Qed.
Example C67_ex : levels mixed = 2%nat /\ to_string plain (Some (apply_call (SetDepth (Some 2%nat)) pconf_default)) mixed = to_string plain (Some (apply_call (SetDepth None) pconf_default)) mixed.
Proof. split; [reflexivity|]. apply C67_depth; cbn; [lia|exact Logic.I]. Qed.
