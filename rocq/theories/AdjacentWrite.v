(** A struct is written with its fields in their order (C58). *)
From Coq Require Import String Ascii NArith ZArith Lia Bool List Permutation.
From Coq Require Import ZifyBool ZifyNat ZifyN.
From Verif Require Import Base Facts EnvOk Value Data Parse De Ser Layout Attr LexWs LexRead DocRead Lit ShowFacts SerLex Repr ReprFacts TypedRead RangeSpec SerWp SerNum SerRepr Adjacent.
Import ListNotations.
Open Scope N_scope.
Open Scope list_scope.
Open Scope sm_scope.

Section WithEnv.
Context {E : Env} {X : XidOk E} {FO : FloatOk E}.
Variable o : opts.
Variable cfg : option pconf.
Hypothesis VC : valid_config cfg.
Local Notation e := (extensions o cfg).
Local Notation rep := (repr e (sf cfg)).

Definition struct_text (n : str) (l : list (str * val)) (t : str) : Prop :=
  exists tn w ti, t = tn ++ c_lp :: w ++ ti ++ [c_rp] /\ name_text e (sf cfg) true n tn /\ layout w /\ items (entry field_key_text rep) l ti.

Lemma em_struct_order n l i d : numeric_range n l = false -> all (fun kv => sem o cfg (snd kv)) l ->
  ranges_ok e cfg false (VStruct n l) -> em (ser o cfg (VStruct n l)) i false d (fun _ t _ _ _ => struct_text n l t).
Proof.
  intros NU H0 RF. cbn [ser].
  destruct (range_kind_of cfg n (length l)) as [rk|] eqn:RK.
  { eapply em_ext with (m' := smod (fun s => sset_isd 0 (sset_nt false s)) ;~ range_ser o cfg rk l); [reflexivity|].
    assert (CR : compact_ranges cfg = true /\ range_named n (length l) = true) by (destruct (range_kind_named cfg n (length l)); [congruence|assumption]).
    destruct CR as [CR NM]. assert (RFN := RF CR). cbn [range_fine] in RFN. rewrite NU in RFN. destruct RFN as [RN RL]. destruct (RN NM) as [XN _].
    assert (H : all (fun kv => writes o cfg (elem o cfg) (snd kv)) l).
    { rewrite all_in in *. intros a IN. apply sem_writes. split; [auto|]. intros _. auto. }
    eapply em_mod_bind with (i' := i) (b' := false) (d' := 0%nat); [auto|intros s' H1 H2 H3; cbn; auto|].
    eapply em_ext; [intros s; exact (range_falls o cfg rk n l s RK NU)|]. unfold fall_back. apply em_write_bind.
    eapply lays_bind; [apply lays_open; exact VC|]. intros w L. apply (em_struct_block o cfg VC (elem o cfg) l i false H). intros w' ti L' IT.
    exists [], (w ++ w'), ti. split; [unfold str, char; cbn [app]; rewrite <- ?app_assoc; reflexivity|].
    split; [now apply nm_none|]. split; [now apply layout_app|now apply field_items]. }
  assert (H : all (fun kv => writes o cfg (elem o cfg) (snd kv)) l).
  { rewrite all_in in *. intros a IN. apply sem_writes. split; [auto|]. intros CR. assert (R := RF CR). cbn [range_fine] in R.
    rewrite NU in R. destruct R as [_ R]. rewrite all_in in R. auto. }
  eapply em_bind with (Q1 := fun ntv t i2 b2 d2 => (ntv = false /\ exists tn w, named o cfg n tn /\ layout w /\ t = tn ++ c_lp :: w) /\
     i2 = wider cfg (negb (compact_structs cfg)) i /\ b2 = false /\ d2 = 0%nat).
  { unfold struct_open. apply em_get. intros s _ NT _. rewrite NT.
    eapply em_mod_bind with (i' := i) (b' := false) (d' := 0%nat); [auto|intros s' H1 H2 H3; cbn; auto|].
    eapply em_bind with (Q1 := fun _ t i2 b2 d2 => (exists tn, named o cfg n tn /\ t = tn ++ [c_lp]) /\ i2 = i /\ b2 = false /\ d2 = 0%nat).
    { eapply puts_bind; [apply puts_name|]. intros tn HN. apply em_write. split; [|auto]. eauto. }
    cbn beta. intros _ t i2 b2 d2 ((tn & HN & ->) & -> & -> & ->).
    eapply lays_bind; [apply lays_open; exact VC|]. intros w L. apply em_ret. rewrite app_nil_r. split; [|auto].
    split; [reflexivity|]. exists tn, w. rewrite <- app_assoc. auto. }
  cbn beta. intros ntv t i2 b2 d2 ((-> & tn & w & HN & L & ->) & -> & -> & ->).
  apply (em_struct_block o cfg VC (elem o cfg) l i false H). intros w' ti L' IT.
  exists tn, (w ++ w'), ti. split; [unfold str, char; cbn [app]; rewrite <- ?app_assoc; cbn [app]; rewrite <- ?app_assoc; reflexivity|].
  split; [apply HN|]. split; [now apply layout_app|now apply field_items].
Qed.
(** the struct that is written for an enum with a tag is not a range *)
Lemma adjacent_no_range tag content v n l : as_adjacent tag content v = Some (VStruct n l) -> numeric_range n l = false.
Proof. intros H. destruct v; try discriminate H; injection H as <- <-; unfold numeric_range; cbn [forallb snd is_number andb]; apply andb_false_r. Qed.
(** nor is a struct whose bounds are not numbers *)
Lemma range_numeric v t : range_text v t -> match v with VStruct n l => numeric_range n l = true | _ => True end.
Proof.
  destruct 1; repeat match goal with H : bound _ _ |- _ => destruct H end; (exact Logic.I || reflexivity).
Qed.
End WithEnv.
