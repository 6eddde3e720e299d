(** C09, C10, C11, C40: typed round trips, layout independence and implicit
    Some.  [repr], [typed], [need] and [clash] are in [Repr], [writable] in
    [SerOk]. *)
From Coq Require Import String Ascii NArith ZArith Lia Bool List Permutation.
From Coq Require Import ZifyBool ZifyNat ZifyN.
From Verif Require Import Base Facts Value Data Parse De Span Ser EnvOk Layout Lit Attr ShowFacts LexWs LexRead DocRead SerLex LexDoc Repr ReprFacts TypedRead TypedMain RangeSpec SerWp SerRepr SerOk Toy.
Import ListNotations.
Open Scope N_scope.
Open Scope list_scope.
Open Scope sm_scope.

Section Proofs.
Context {E : Env} {X : XidOk E} {FO : FloatOk E}.

(** the floats, where all NaNs of a sign count as one *)
Definition float_val (k : fk) (b : N) : Prop := b < 2 ^ f_bits k /\ canon k b = b.

Lemma typed_plain tenv fok v : forall ty, typed tenv fok ty v -> plain fok v.
Proof.
  induction v as [v F|v IH|n v IH|l IH|l IH|n l IH|l IH|n l IH|n k v IH|n k l IH|n k l IH] using val_ind';
    intros ty HT; destruct (peel tenv fok ty _ HT) as (_ & ty' & NR & T & _); clear HT; cbn [plain].
  - destruct v; try contradiction; inversion T; subst; try contradiction; cbn; auto.
  - inversion T; subst; try contradiction. eapply IH; eassumption.
  - inversion T; subst; try contradiction. eapply IH; eassumption.
  - inversion T; subst; try contradiction. rewrite all_in in *. intros a IN. eapply IH; [exact IN|].
    match goal with H : Forall _ _ |- _ => eapply Forall_forall in H; [exact H|exact IN] end.
  - inversion T as [| | | | | | | | | | | |ts ? F2| | | | | | | |]; subst; try contradiction. clear T. induction F2 as [|t v ts l HT F2 IHF]; [exact Logic.I|].
    destruct IH as [I1 I2]. split; [eapply I1; exact HT|auto].
  - inversion T as [| | | | | | | | | | | | |? ts ? F2| | | | | | |]; subst; try contradiction. clear T. induction F2 as [|t v ts l HT F2 IHF]; [exact Logic.I|].
    destruct IH as [I1 I2]. split; [eapply I1; exact HT|auto].
  - inversion T; subst; try contradiction. rewrite all_in in *. intros a IN. destruct (IH a IN) as [I1 I2].
    match goal with H : Forall _ _ |- _ => eapply Forall_forall in H; [|exact IN]; destruct H end. split; [eapply I1|eapply I2]; eassumption.
  - inversion T; subst; try contradiction. rewrite all_in in *. intros a IN.
    match goal with H : Forall _ _ |- _ => eapply Forall_forall in H; [|exact IN]; destruct H as (t & _ & HT) end. eapply IH; eassumption.
  - inversion T; subst; try contradiction. eapply IH; eassumption.
  - inversion T as [| | | | | | | | | | | | | | | | | |? ? ? ts ? ? ? F2| |]; subst; try contradiction. clear T.
    match goal with H : In _ _ |- _ => clear H end. induction F2 as [|t v ts l HT F2 IHF]; [exact Logic.I|].
    destruct IH as [I1 I2]. split; [eapply I1; exact HT|auto].
  - inversion T; subst; try contradiction. rewrite all_in in *. intros a IN.
    match goal with H : Forall _ _ |- _ => eapply Forall_forall in H; [|exact IN]; destruct H as (t & _ & HT) end. eapply IH; eassumption.
Qed.

(** What is written for a value of a type is read back as that value, at any
    configuration and with any recursion limit that admits the value.  With
    compact_ranges, its ranges must be as [RangeSpec] says; without, they are. *)
Lemma no_compact e cfg b v : compact_ranges cfg = false -> ranges_ok e cfg b v.
Proof. intros H CR. congruence. Qed.
Theorem round_trip_limit tenv o cfg ty v text :
  valid_config cfg -> ranges_ok (extensions o cfg) cfg false v -> room (need v) (o_limit o) ->
  typed tenv float_val ty v -> clash (extensions o cfg) v = false ->
  to_string o cfg v = inl text ->
  exists n, forall f, (n <= f)%nat -> options_from_str o (de_ty tenv f ty) text = RValue v.
Proof.
  intros VC NR RM HT CL TS.
  destruct (to_string_repr o cfg VC float_val v text) as (a & x & t & -> & HA & EX & RP); auto.
  { now apply typed_plain with tenv ty. }
  destruct (typed_document (sf cfg) tenv float_val o ty v [] a x t []) as (n & H); auto; [constructor|rewrite EX; exact RP|now left; constructor|].
  exists n. intros f LF. specialize (H f LF). rewrite app_nil_r in H. exact H.
Qed.

(** C10 *)
Theorem C10_pretty_round_trip tenv o p ty v text :
  valid_config (Some p) -> ranges_ok (exts_or (o_exts o) (p_extensions p)) (Some p) false v -> o_limit o = None ->
  typed tenv float_val ty v -> clash (exts_or (o_exts o) (p_extensions p)) v = false ->
  to_string o (Some p) v = inl text ->
  exists n, forall f, (n <= f)%nat -> options_from_str o (de_ty tenv f ty) text = RValue v.
Proof.
  intros VC NR LM HT CL. apply round_trip_limit; auto. rewrite LM. exact Logic.I.
Qed.
(** C09 *)
Theorem C09_compact_round_trip tenv o ty v text :
  o_limit o = None -> typed tenv float_val ty v -> clash (o_exts o) v = false ->
  to_string o None v = inl text ->
  exists n, forall f, (n <= f)%nat -> options_from_str o (de_ty tenv f ty) text = RValue v.
Proof.
  intros LM HT CL. apply round_trip_limit; auto; [exact Logic.I|now apply no_compact|rewrite LM; exact Logic.I|].
  unfold extensions. replace (exts_or (o_exts o) exts_empty) with (o_exts o); [exact CL|].
  destruct (o_exts o) as [[|] [|] [|] [|]]; reflexivity.
Qed.
(** and there is something to read back *)
Theorem C09_writes o cfg v : valid_config cfg -> ranges_ok (extensions o cfg) cfg false v -> o_limit o = None ->
  plain float_val v -> clash (extensions o cfg) v = false -> writable v ->
  exists text, to_string o cfg v = inl text.
Proof.
  intros VC NR LM P CL W. unfold to_string, to_writer, sbind. destruct (emits_new o cfg VC) as (a & x & EA & _).
  rewrite EA by reflexivity. set (s := sset_out _ _).
  assert (S := sem_elem o cfg v 0 (conj (ser_sem o cfg VC float_val v (fun k b H => H) P CL) NR) s eq_refl eq_refl eq_refl eq_refl).
  assert (F := fine_ser o cfg v W s eq_refl).
  destruct (ser o cfg v s) as [u s'| |]; [|now destruct F|contradiction]. eexists. reflexivity.
Qed.

(** C11 *)
Theorem C11_reads_every_layout tenv fok o ty v w0 at0 x t w1 :
  layout w0 -> attrs_text at0 x -> repr (exts_or x (o_exts o)) (fun _ => True) v t -> final_layout w1 ->
  typed tenv fok ty v -> room (need v) (o_limit o) ->
  exists n, forall f, (n <= f)%nat -> options_from_str o (de_ty tenv f ty) (w0 ++ at0 ++ t ++ w1) = RValue v.
Proof. apply typed_document. Qed.
Theorem C11_layout_independent tenv fok o ty v w0 at0 x t w1 w0' at0' x' t' w1' :
  layout w0 -> attrs_text at0 x -> repr (exts_or x (o_exts o)) (fun _ => True) v t -> final_layout w1 ->
  layout w0' -> attrs_text at0' x' -> repr (exts_or x' (o_exts o)) (fun _ => True) v t' -> final_layout w1' ->
  typed tenv fok ty v -> room (need v) (o_limit o) ->
  exists n, forall f, (n <= f)%nat ->
    options_from_str o (de_ty tenv f ty) (w0 ++ at0 ++ t ++ w1) = RValue v /\
    options_from_str o (de_ty tenv f ty) (w0' ++ at0' ++ t' ++ w1') = RValue v.
Proof.
  intros L HA RV FL L' HA' RV' FL' HT RM.
  destruct (typed_document _ tenv fok o ty v w0 at0 x t w1 L HA RV FL HT RM) as (n & H).
  destruct (typed_document _ tenv fok o ty v w0' at0' x' t' w1' L' HA' RV' FL' HT RM) as (n' & H').
  exists (Nat.max n n'). intros f LF. split; [apply H|apply H']; lia.
Qed.

(** C40 *)
Lemma any_const {A} (p : A -> bool) l : (forall a, In a l -> p a = false) -> any p l = false.
Proof.
  induction l as [|a l IH]; intros H; [reflexivity|]. unfold any in *. cbn. rewrite (H a (or_introl eq_refl)). cbn. apply IH. intros; apply H; now right.
Qed.
Lemma no_clash e v : x_implicit_some e && x_unwrap_variant_newtypes e = false -> clash e v = false.
Proof.
  intros H. induction v as [v F|v IH|n v IH|l IH|l IH|n l IH|l IH|n l IH|n k v IH|n k l IH|n k l IH] using val_ind'; cbn [clash]; auto;
    try (apply any_const; rewrite all_in in IH; intros a IN; specialize (IH a IN); auto).
  - destruct v; try contradiction; reflexivity.
  - destruct IH as [-> ->]. reflexivity.
  - now rewrite H, IH.
Qed.
(** options nest to any depth, whatever the other extensions, unless
    unwrap_variant_newtypes is on as well *)
Theorem C40_round_trip tenv o cfg ty v text :
  valid_config cfg -> ranges_ok (extensions o cfg) cfg false v -> o_limit o = None ->
  x_unwrap_variant_newtypes (extensions o cfg) = false -> typed tenv float_val ty v ->
  to_string o cfg v = inl text ->
  exists n, forall f, (n <= f)%nat -> options_from_str o (de_ty tenv f ty) text = RValue v.
Proof.
  intros VC NR LM U HT. apply round_trip_limit; auto; [rewrite LM; exact Logic.I|]. apply no_clash. rewrite U. apply andb_false_r.
Qed.
(** with it, for all values where no unwrapped tuple begins with an option *)
Theorem C40_unambiguous tenv o cfg ty v v' text :
  valid_config cfg -> ranges_ok (extensions o cfg) cfg false v -> ranges_ok (extensions o cfg) cfg false v' -> o_limit o = None ->
  typed tenv float_val ty v -> typed tenv float_val ty v' ->
  clash (extensions o cfg) v = false -> clash (extensions o cfg) v' = false ->
  to_string o cfg v = inl text -> to_string o cfg v' = inl text -> v = v'.
Proof.
  intros VC NR NR' LM HT HT' CL CL' TS TS'.
  assert (RM : forall n, room n (o_limit o)) by (intros n; rewrite LM; exact Logic.I).
  destruct (round_trip_limit tenv o cfg ty v text VC NR (RM _) HT CL TS) as (n & H).
  destruct (round_trip_limit tenv o cfg ty v' text VC NR' (RM _) HT' CL' TS') as (n' & H').
  specialize (H (Nat.max n n') ltac:(lia)). specialize (H' (Nat.max n n') ltac:(lia)). congruence.
Qed.
(** the text of [Some(..Some(None)..)] spells out every Some *)
Fixpoint nested (n : nat) (v : val) : val := match n with O => v | S n' => VSome (nested n' v) end.
Fixpoint nested_ty (n : nat) (t : ty) : ty := match n with O => t | S n' => TOption (nested_ty n' t) end.
Theorem C40_none_text o n : x_implicit_some (o_exts o) = true -> o_limit o = None ->
  to_string o None (nested n VNone) = inl (somes n).
Proof.
  intros IS LM.
  assert (XI : x_implicit_some (extensions o None) = true) by (unfold extensions, exts_or; cbn; now rewrite IS).
  assert (EM : forall n s, w_cap s = None -> s_lim s = None ->
    ser o None (nested n VNone) s = SOk tt (sset_isd 0 (sset_out (w_out s ++ somes (s_isd s + n)) s))).
  { clear n. induction n as [|n IH]; intros s C L; cbn [nested ser].
    - unfold ser_none, sbind, sget, smod.
      assert (EQ : emits (swrite_n (s_isd s) s_Some_open ;~ write s_None ;~ swrite_n (s_isd s) [c_rp]) (somes (s_isd s))).
      { rewrite <- somes_concat. apply emits_seq; [apply emits_n|]. apply emits_seq; [apply emits_write|apply emits_n]. }
      specialize (EQ (sset_isd 0 s) C). unfold sbind in EQ. rewrite EQ, Nat.add_0_r. reflexivity.
    - unfold ser_some. rewrite XI. unfold sbind, smod, sguard. cbn [s_lim sset_isd]. rewrite L, IH by assumption. cbn.
      rewrite Nat.add_succ_r. reflexivity. }
  unfold to_string, to_writer, ser_new, sbind, sret. rewrite EM by (assumption || reflexivity). reflexivity.
Qed.
End Proofs.
Print Assumptions C09_compact_round_trip.
Print Assumptions C09_writes.
Print Assumptions C10_pretty_round_trip.
Print Assumptions C11_reads_every_layout.
Print Assumptions C11_layout_independent.
Print Assumptions C40_round_trip.
Print Assumptions C40_unambiguous.
Print Assumptions C40_none_text.

(** ** Examples and refutations *)
#[local] Existing Instance Toy.
#[local] Existing Instance toy_xid.
#[local] Existing Instance toy_float.

Definition no_refs (n : nat) : ty := TUnit.
(** struct S { a: Option<Vec<u8>>, b: E }  enum E { T(Option<bool>, String), N(P) }  struct P(i8, char) *)
Definition ex_ty : ty := TStruct false (lit "S")
  [(lit "a", TOption (TSeq (TInt U8)));
   (lit "type", TEnum (lit "E") [(lit "T", WTup [TOption TBool; TStr]); (lit "N", WNew (TTupleStruct (lit "P") [TInt I8; TChar]))])].
Definition ex_val : val := VStruct (lit "S")
  [(lit "a", VSome (VSeq [VInt U8 1; VInt U8 255]));
   (lit "type", VNewVariant (lit "E") (lit "N") (VTupleStruct (lit "P") [VInt I8 (-3); VChar 39]))].
Lemma nodup_str (l : list str) : (fix nd (l : list str) : bool := match l with [] => true | a :: r => negb (existsb (str_eqb a) r) && nd r end) l = true -> NoDup l.
Proof.
  induction l as [|a l IH]; intros H; constructor.
  - intros IN. apply andb_prop in H as [H _]. apply negb_true_iff in H. assert (existsb (str_eqb a) l = true); [|congruence].
    apply existsb_exists. exists a. split; [exact IN|]. now apply str_eqb_eq.
  - apply IH. now apply andb_prop in H.
Qed.
Lemma ex_typed tenv : typed tenv float_val ex_ty ex_val.
Proof.
  apply ty_struct; [apply nodup_str; reflexivity|reflexivity|]. constructor; [|constructor; [|constructor]].
  - eexists. split; [left; reflexivity|]. repeat constructor.
  - eexists. split; [right; left; reflexivity|]. eapply ty_new_variant; [apply nodup_str; reflexivity|right; left; reflexivity|].
    repeat constructor.
Qed.
Definition ex_exts : opts := Opts (Exts true true true true) None.
Example C09_ex : clash (o_exts ex_exts) ex_val = false /\ o_limit ex_exts = None /\
  to_string ex_exts None ex_val = inl (lit "S(a:[1,255],type:N(-3,'\''))") /\
  options_from_str ex_exts (de_ty no_refs 9 ex_ty) (lit "S(a:[1,255],type:N(-3,'\''))") = RValue ex_val.
Proof. vm_compute. auto. Qed.
Example C09_writes_ex : writable ex_val /\ plain float_val ex_val.
Proof. split; [|exact (typed_plain no_refs float_val ex_val ex_ty (ex_typed _))]. cbn. unfold good_name. repeat (split || constructor); discriminate. Qed.
Definition ex_conf : pconf :=
  PConf (Some 1%nat) [10] [32;32] [32] true true true (Exts false true false false) false false true false true None false.
Example C10_ex : valid_config (Some ex_conf) /\ p_compact_ranges ex_conf = false /\
  to_string (Opts exts_empty None) (Some ex_conf) ex_val =
    inl (lit "#![enable(implicit_some)]" ++ [10] ++
         lit "S(a: [" ++ [10] ++ lit "  /*[0]*/ 1u8," ++ [10] ++ lit "  /*[1]*/ 255u8," ++ [10] ++ lit "], type: N(P(" ++ [10] ++ lit "  -3i8," ++ [10] ++ lit "  '\''," ++ [10] ++ lit ")))").
Proof. vm_compute. auto. Qed.

(** the grammar admits other layouts of the same value *)
Example C11_ex : repr exts_empty (fun _ => True) (VTuple [VInt U8 255; VSome VUnit])
  (lit "( /* one */ 0xFF , Some( ()  ) ,)").
Proof.
  change (lit "( /* one */ 0xFF , Some( ()  ) ,)") with
    (c_lp :: lit " /* one */ " ++ (lit "0xFF" ++ lit " " ++ c_comma :: lit " " ++ (lit "Some" ++ [] ++ c_lp :: lit " " ++ (lit "()" ++ lit "  ") ++ [c_rp]) ++ lit " " ++ c_comma :: [] ++ []) ++ [c_rp]).
  apply r_tuple.
  - apply l_ws; [reflexivity|]. apply (l_block (lit " one */") (lit " ")); [|repeat constructor]. apply (comment_plain (lit " one ")).
    repeat constructor; discriminate.
  - apply it_cons.
    + apply r_int; [exact Logic.I|reflexivity|]. apply (il [] false s_0x 16 (lit "FF") 255); [constructor|constructor|].
      apply (in_digit 16 (lit "F") 15 70 15); [|apply (hd_up 15); lia|lia]. apply (in_first 16 70 15); [apply (hd_up 15); lia|lia].
    + repeat constructor.
    + repeat constructor.
    + apply (it_cons _ (VSome VUnit) _ (lit " ") [] [] []); [|repeat constructor|repeat constructor|constructor].
      apply (r_some _ _ VUnit (lit "()" ++ lit "  ") [] (lit " ")); [constructor|repeat constructor|].
      apply a_plain; [now left|constructor|repeat constructor].
Qed.
Example C11_ex_reads : options_from_str opts_default (de_ty no_refs 9 (TTuple [TInt U8; TOption TUnit])) (lit "( /* one */ 0xFF , Some( ()  ) ,)") =
  RValue (VTuple [VInt U8 255; VSome VUnit]).
Proof. vm_compute. reflexivity. Qed.
(** Two places do not admit layout: after the name of a tuple struct, though
    other names may be followed by it, and inside of a unit. *)
Theorem C11_tuple_struct_gap_refuted : exists ty t u v,
  options_from_str opts_default (de_ty no_refs 9 ty) (t ++ u) = RValue v /\
  (exists er sp, options_from_str opts_default (de_ty no_refs 9 ty) (t ++ lit " " ++ u) = RError er sp) /\
  t = lit "Foo" /\ u = lit "(1,2)".
Proof.
  exists (TTupleStruct (lit "Foo") [TInt U8; TInt U8]), (lit "Foo"), (lit "(1,2)"), (VTupleStruct (lit "Foo") [VInt U8 1; VInt U8 2]).
  split; [vm_compute; reflexivity|]. split; [|auto]. eexists _, _. vm_compute. reflexivity.
Qed.
Theorem C11_unit_gap_refuted : exists ty t u v,
  options_from_str opts_default (de_ty no_refs 9 ty) (t ++ u) = RValue v /\
  (exists er sp, options_from_str opts_default (de_ty no_refs 9 ty) (t ++ lit " " ++ u) = RError er sp) /\
  t = lit "(" /\ u = lit ")".
Proof.
  exists TUnit, (lit "("), (lit ")"), VUnit.
  split; [vm_compute; reflexivity|]. split; [|auto]. eexists _, _. vm_compute. reflexivity.
Qed.

Definition both_exts : opts := Opts (Exts false true true false) None.
Example C40_ex : clash (o_exts both_exts) (VNewVariant (lit "E") (lit "A") (VSome (VTuple [VInt U8 5; VNone]))) = false /\
  to_string both_exts None (VNewVariant (lit "E") (lit "A") (VSome (VTuple [VInt U8 5; VNone]))) = inl (lit "A(5,None)").
Proof. vm_compute. auto. Qed.
Example C40_none_ex : to_string both_exts None (VTuple [nested 3 VNone; nested 2 (VInt U8 7); VNone]) = inl (lit "(Some(Some(Some(None))),7,None)").
Proof. vm_compute. reflexivity. Qed.
(** With both implicit_some and unwrap_variant_newtypes, A(Some((None,))) is
    read back as A(None), and A(Some((None, 5))) not at all. *)
Theorem C40_refuted : exists ty v v' text, typed no_refs float_val ty v /\
  to_string both_exts None v = inl text /\
  options_from_str both_exts (de_ty no_refs 9 ty) text = RValue v' /\ v <> v'.
Proof.
  exists (TEnum (lit "E") [(lit "A", WNew (TOption (TTuple [TOption TBool])))]),
    (VNewVariant (lit "E") (lit "A") (VSome (VTuple [VNone]))), (VNewVariant (lit "E") (lit "A") VNone), (lit "A(None)").
  split; [|vm_compute; repeat split; discriminate].
  eapply ty_new_variant; [apply nodup_str; reflexivity|left; reflexivity|]. repeat constructor.
Qed.
Theorem C40_unreadable_refuted : exists ty v text er sp, typed no_refs float_val ty v /\
  to_string both_exts None v = inl text /\
  options_from_str both_exts (de_ty no_refs 9 ty) text = RError er sp.
Proof.
  exists (TEnum (lit "E") [(lit "A", WNew (TOption (TTuple [TOption TBool; TInt U8])))]),
    (VNewVariant (lit "E") (lit "A") (VSome (VTuple [VNone; VInt U8 5]))), (lit "A(None,5)"). eexists _, _.
  split; [|vm_compute; auto].
  eapply ty_new_variant; [apply nodup_str; reflexivity|left; reflexivity|]. repeat constructor.
Qed.
