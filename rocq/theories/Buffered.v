(** Specification for untagged enums (C53): what serde's buffer holds for a
    value, and the restrictions of README.md:181-220. *)
From Coq Require Import NArith ZArith Bool List Lia.
From Verif Require Import Base Facts Value Data Parse De Repr ReprFacts IntoRust Content TypedRead Accept Made ThmInto RangeSpec.
Import ListNotations.
Open Scope N_scope.
Open Scope list_scope.

(** ** The buffer *)
Definition settled (x : value) : Prop := match x with XNone | XUnit | XSome _ => False | _ => True end.
Section Buffers.
Context {E : Env}.
Inductive buffers : val -> value -> Prop :=
  | bf_bool b : buffers (VBool b) (XBool b)
  | bf_int k z n : is_128 k = false -> num_into n (TInt k) = Some (VInt k z) -> buffers (VInt k z) (XNum n)
  | bf_float k b n : num_into n (TFloat k) = Some (VFloat k b) -> buffers (VFloat k b) (XNum n)
  | bf_char c : buffers (VChar c) (XChar c)
  | bf_str s : buffers (VStr s) (XStr s)
  | bf_bytes b : buffers (VBytes b) (XBytes b)
  | bf_unit : buffers VUnit XUnit
  | bf_unit_struct n : buffers (VUnitStruct n) XUnit
  | bf_none : buffers VNone XNone
  | bf_some v x : buffers v x -> buffers (VSome v) (XSome x)
  (* with implicit_some *)
  | bf_implicit v x : settled x -> buffers v x -> buffers (VSome v) x
  | bf_seq l xs : Forall2 buffers l xs -> buffers (VSeq l) (XSeq xs)
  | bf_tuple l xs : Forall2 buffers l xs -> buffers (VTuple l) (XSeq xs)
  | bf_tuple_struct n l xs : Forall2 buffers l xs -> buffers (VTupleStruct n l) (XSeq xs)
  | bf_map l es : Forall2 (fun kv kx => buffers (fst kv) (fst kx) /\ buffers (snd kv) (snd kx)) l es -> buffers (VMap l) (XMap es)
  | bf_struct n fs es : Forall2 (fun fv kx => fst kx = XStr (fst fv) /\ buffers (snd fv) (snd kx)) fs es -> buffers (VStruct n fs) (XMap es)
  | bf_unit_variant n k : buffers (VUnitVariant n k) (XStr k)
  | bf_new_variant n k v x : buffers v x -> buffers (VNewVariant n k v) (XMap [(XStr k, x)])
  | bf_tup_variant n k l xs : Forall2 buffers l xs -> buffers (VTupVariant n k l) (XMap [(XStr k, XSeq xs)])
  | bf_struct_variant n k fs es : Forall2 (fun fv kx => fst kx = XStr (fst fv) /\ buffers (snd fv) (snd kx)) fs es ->
      buffers (VStructVariant n k fs) (XMap [(XStr k, XMap es)]).
End Buffers.

(** ** The restrictions *)
Definition is_unit (v : val) : bool := match v with VUnit | VUnitStruct _ => true | _ => false end.
Section Restricted.
Context {E : Env}.
Variable e : exts.
(** [cr]: ranges are written compactly *)
Variable cr : bool.
(** [inside]: directly inside a newtype variant or a Some whose parentheses are
    shared, with unwrap_variant_newtypes *)
Fixpoint restricted (inside : bool) (v : val) : Prop :=
  match v with
  | VInt k _ => is_128 k = false
  | VNewtype _ _ | VRaw _ | VIgnored => False
  | VSome v => if x_implicit_some e then is_unit v = false /\ restricted inside v else restricted (x_unwrap_variant_newtypes e) v
  | VSeq l => all (restricted false) l
  | VTuple l | VTupleStruct _ l => l <> [] /\ (inside = true -> length l <> 1%nat) /\ all (restricted false) l
  | VMap es => all (fun kv => restricted false (fst kv) /\ restricted false (snd kv)) es
  | VStruct n fs => fs <> [] /\ (cr = true -> ends_fine n fs) /\ all (fun kv => restricted false (snd kv)) fs
  | VNewVariant _ _ v => restricted (x_unwrap_variant_newtypes e) v
  | VTupVariant _ _ l => (2 <= length l)%nat /\ all (restricted false) l
  | VStructVariant _ _ fs => fs <> [] /\ all (fun kv => restricted false (snd kv)) fs
  | _ => True
  end.
End Restricted.

(** ** From the buffer to the type *)
Section Convert.
Context {E : Env}.
Variable tenv : nat -> ty.
Variable fok : fk -> N -> Prop.
Lemma find_variant_known variants k w : NoDup (map fst variants) -> In (k, w) variants -> find_variant variants (XStr k) = CVal (k, w).
Proof.
  intros ND IN. unfold find_variant. rewrite (assoc_find k variants w); [reflexivity|]. now apply TypedRead.assoc_in.
Qed.
Lemma elems_typed (rec : nat -> ty -> value -> conv val) (P : val -> value -> Prop) l xs : Forall2 P l xs ->
  (forall v x T, P v x -> typed tenv fok T v -> enough (fun f => rec f T x = CVal v)) ->
  forall Ts, Forall2 (typed tenv fok) Ts l -> enough (fun f => exact_elems (map (rec f) Ts) xs = CVal l).
Proof.
  intros F H. assert (EN : forall Ts, Forall2 (typed tenv fok) Ts l -> forall i, enough (fun f => take_elems (map (rec f) Ts) i xs = CVal (l, []))).
  { induction F as [|v x l xs HP F IH]; intros Ts HT i; inversion HT as [|T ? Ts' ? T1 T2]; subst.
    - now apply enough_all.
    - eapply enough_mono; [|exact (enough_and _ _ (H v x T HP T1) (IH Ts' T2 (Datatypes.S i)))]. cbn. intros f [-> ->]. reflexivity. }
  intros Ts HT. eapply enough_mono; [|exact (EN Ts HT O)]. cbn. unfold exact_elems. intros f ->. reflexivity.
Qed.
Lemma fields_typed (rec : nat -> ty -> value -> conv val) (P : val -> value -> Prop) deny fields fs es :
  Forall2 (fun fv kx => fst kx = XStr (fst fv) /\ P (snd fv) (snd kx)) fs es ->
  (forall v x T, P v x -> typed tenv fok T v -> enough (fun f => rec f T x = CVal v)) ->
  NoDup (map fst fields) -> map fst fs = map fst fields ->
  Forall (fun fv => exists t, In (fst fv, t) fields /\ typed tenv fok t (snd fv)) fs ->
  enough (fun f => content_fields tenv (rec f) deny fields es = CVal fs).
Proof.
  intros F H ND MF TF.
  assert (KE : forallb (fun kv => ident_key (fst kv)) es = true).
  { clear - F. induction F as [|fv kx fs es [Q _] F IH]; [reflexivity|]. cbn [forallb]. now rewrite Q, IH. }
  pose (some := fun fv : str * val => (fst fv, Some (snd fv))).
  assert (FE : Forall2 (fun kx fv => enough (fun f => made_entry (fun t x v => rec f t x = CVal v) deny fields kx fv)) es (map some fs)).
  { clear KE MF. induction F as [|fv [k x] fs es [Q HP] F IH]; [constructor|]. cbn in Q, HP. subst k. inversion TF as [|? ? (T & IT & TV) TF']; subst.
    constructor; [|now apply IH]. eapply enough_mono; [|exact (H _ _ T HP TV)]. cbn beta. intros f R.
    apply me_known with (t := T); [|exact R]. constructor. now apply TypedRead.assoc_in. }
  apply enough_Forall2 in FE. eapply enough_mono; [|exact FE]. cbn beta. intros f X.
  assert (GV : given (map some fs) = fs) by (clear; unfold given; induction fs as [|[k v] fs IH]; [reflexivity|]; cbn; now rewrite IH).
  destruct (struct_ok tenv (rec f) deny fields es (map some fs) fs X) as (acc & A1 & A2).
  { unfold struct_of. rewrite GV, MF. split; [exact ND|]. split; [reflexivity|].
    assert (LN : length fields = length fs) by (rewrite <- (map_length fst fields), <- MF; apply map_length).
    assert (AL : forall gs : list (str * val), length fields = length gs -> (forall g, In g gs -> In g fs) ->
      Forall2 (fun ft fv => In fv fs \/ (is_option tenv (snd ft) = true /\ snd fv = VNone /\ ~ In (fst fv) (map fst fs))) fields gs).
    { clear. induction fields as [|f fields IH]; intros [|g gs] LN IN; try discriminate LN; constructor; [left; apply IN; now left|].
      apply IH; [now injection LN|]. intros; apply IN; now right. }
    rewrite <- MF. apply AL; auto. }
  unfold content_fields. rewrite KE, A1. exact A2.
Qed.

Ltac inv NR HT := inversion HT; subst; try (match goal with H : forall m, tenv ?n <> _ |- _ => now destruct (NR n) end); clear NR; cbn [content_step].
Theorem buffers_convert : forall v x, buffers v x -> forall T, typed tenv fok T v -> enough (fun f => of_content tenv f T x = CVal v).
Proof.
  assert (RF : forall v x, (forall T, (forall m, T <> TRef m) -> typed tenv fok T v -> enough (fun f => of_content tenv f T x = CVal v)) ->
    forall T, typed tenv fok T v -> enough (fun f => of_content tenv f T x = CVal v)).
  { intros v x H T HT. destruct T as [| | | | | | | | | | | | | | | | | | |m]; try (apply H; [discriminate|exact HT]).
    inversion HT; subst. apply enough_S. cbn [of_content]. now apply H. }
  fix IH 3. intros v x B. apply RF. clear RF. intros T NR HT.
  assert (ST : enough (fun f => content_step tenv (of_content tenv f) T x = CVal v) -> enough (fun f => of_content tenv f T x = CVal v)).
  { intros EN. apply enough_S. cbn [of_content]. destruct T; try exact EN. now destruct (NR n). }
  apply ST. clear ST.
  destruct B as [b|k z n K NI|k b n NI|c|s|b| |n| |v x B|v x S0 B|l xs F|l xs F|n l xs F|l es F|n fs es F|n k|n k v x B|n k l xs F|n k fs es F].
  - inv NR HT. now apply enough_all.
  - inv NR HT. apply enough_all. intros _. now rewrite K, NI.
  - inv NR HT. apply enough_all. intros _. now rewrite NI.
  - inv NR HT. now apply enough_all.
  - inv NR HT. now apply enough_all.
  - inv NR HT. now apply enough_all.
  - inv NR HT. now apply enough_all.
  - inv NR HT. now apply enough_all.
  - inv NR HT. now apply enough_all.
  - assert (C := IH v x B). clear B. inv NR HT. eapply enough_mono; [|apply C; eassumption]. cbn beta. intros f ->. reflexivity.
  - assert (C := IH v x B). clear B. inv NR HT. eapply enough_mono; [|apply C; eassumption]. cbn beta. intros f Q. destruct x; try contradiction S0; now rewrite Q.
  - assert (F' := Forall2_imp _ _ _ _ (fun v x B => IH v x B) F). clear F. inv NR HT.
    match goal with H : Forall _ l |- _ => rename H into HL end.
    assert (F2 : Forall2 (fun x v => enough (fun f => of_content tenv f t x = CVal v)) xs l).
    { clear HT. induction F' as [|v x l xs B F IHl]; [constructor|]. inversion HL; subst. constructor; auto. }
    apply enough_Forall2 in F2. eapply enough_mono; [|exact F2]. cbn beta. intros f X. now rewrite (all_elems_ok _ _ _ X).
  - assert (F' := Forall2_imp _ _ _ _ (fun v x B => IH v x B) F). clear F. inv NR HT.
    eapply enough_mono; [|eapply (elems_typed (of_content tenv) _ _ _ F'); [auto|eassumption]]. cbn beta. intros f ->. reflexivity.
  - assert (F' := Forall2_imp _ _ _ _ (fun v x B => IH v x B) F). clear F. inv NR HT.
    eapply enough_mono; [|eapply (elems_typed (of_content tenv) _ _ _ F'); [auto|eassumption]]. cbn beta. intros f ->. reflexivity.
  - assert (F' := Forall2_imp _ _ _ _ (fun kv kx (B : buffers (fst kv) (fst kx) /\ buffers (snd kv) (snd kx)) => let (P, Q) := B in conj (IH _ _ P) (IH _ _ Q)) F). clear F. inv NR HT.
    match goal with H : Forall _ l |- _ => rename H into HL end.
    assert (F2 : Forall2 (fun kx kv => enough (fun f => of_content tenv f kt (fst kx) = CVal (fst kv) /\ of_content tenv f vt (snd kx) = CVal (snd kv))) es l).
    { clear HT. induction F' as [|v x l xs [B1 B2] F IHl]; [constructor|]. inversion HL as [|? ? [T1 T2] HL']; subst. constructor; [|now apply IHl]. apply enough_and; auto. }
    apply enough_Forall2 in F2. eapply enough_mono; [|exact F2]. cbn beta. intros f X. now rewrite (all_entries_ok _ _ _ _ X).
  - assert (F' := Forall2_imp _ _ _ _ (fun fv kx (B : fst kx = XStr (fst fv) /\ buffers (snd fv) (snd kx)) => let (P, Q) := B in conj P (IH _ _ Q)) F). clear F. inv NR HT.
    eapply enough_mono; [|eapply (fields_typed (of_content tenv) (fun v x => forall T, typed tenv fok T v -> enough (fun f => of_content tenv f T x = CVal v)) deny fields fs es F'); [auto|eassumption..]]. cbn beta. intros f Q.
    unfold content_struct_of. now rewrite Q.
  - inv NR HT. apply enough_all. intros _. erewrite find_variant_known by eassumption. reflexivity.
  - assert (C := IH v x B). clear B. inv NR HT. eapply enough_mono; [|apply C; eassumption]. cbn beta. intros f Q. erewrite find_variant_known by eassumption. cbn [cbind snd fst]. now rewrite Q.
  - assert (F' := Forall2_imp _ _ _ _ (fun v x B => IH v x B) F). clear F. inv NR HT.
    eapply enough_mono; [|eapply (elems_typed (of_content tenv) _ _ _ F'); [auto|eassumption]]. cbn beta. intros f Q.
    erewrite find_variant_known by eassumption. cbn [cbind snd fst]. now rewrite Q.
  - assert (F' := Forall2_imp _ _ _ _ (fun fv kx (B : fst kx = XStr (fst fv) /\ buffers (snd fv) (snd kx)) => let (P, Q) := B in conj P (IH _ _ Q)) F). clear F. inv NR HT.
    eapply enough_mono; [|eapply (fields_typed (of_content tenv) (fun v x => forall T, typed tenv fok T v -> enough (fun f => of_content tenv f T x = CVal v)) deny fields fs es F'); [auto|eassumption..]]. cbn beta. intros f Q.
    erewrite find_variant_known by eassumption. cbn [cbind snd fst]. unfold content_struct_of. now rewrite Q.
Qed.
End Convert.
