(** C52: selecting the text of an error's span. *)
From Coq Require Import String Ascii NArith ZArith Lia Bool List.
From Verif Require Import Base Facts Value Data Parse De Span EnvOk Toy PosFacts DocSafe ThmSafety Substr.
Import ListNotations.
Open Scope N_scope.
Open Scope list_scope.

(** a grapheme cluster of one character, or the line break of two *)
Definition simple (g : str) : Prop := (exists c, g = [c]) \/ g = [13; 10].

Lemma step_simple a g : simple g -> from_src_end (a ++ g) =
  if is_newline g then Pos (S (line (from_src_end a))) 1 else Pos (line (from_src_end a)) (S (col (from_src_end a))).
Proof.
  intros [[c ->]| ->].
  - rewrite from_src_end_snoc. unfold walk1, is_newline. cbn [str_eqb]. change c_nl with 10. destruct (c =? 10); [reflexivity|]. now rewrite andb_false_r.
  - change (a ++ [13; 10]) with (a ++ [13] ++ [10]). rewrite app_assoc, !from_src_end_snoc. reflexivity.
Qed.
Lemma pos_eqb_eq p q : pos_eqb p q = true <-> p = q.
Proof.
  unfold pos_eqb. destruct p as [l c], q as [l' c']. cbn. rewrite andb_true_iff, !PeanoNat.Nat.eqb_eq. split; [intros [-> ->]; reflexivity|intros [= -> ->]; auto].
Qed.
Lemma skipn_add {A} n m (l : list A) : skipn n (skipn m l) = skipn (m + n) l.
Proof. revert l. induction m as [|m IH]; intros l; [reflexivity|]. destruct l; cbn; [now rewrite skipn_nil|apply IH]. Qed.
Lemma simple_nonempty g : simple g -> g <> [].
Proof. intros [[c ->]| ->]; discriminate. Qed.
Lemma walk_finds gs : Forall simple gs -> forall k a i, (k <= length gs)%nat ->
  grapheme_walk (from_src_end (a ++ concat (firstn k gs))) gs (line (from_src_end a)) (col (from_src_end a)) i = Some (i + k)%nat.
Proof.
  induction 1 as [|g gs Hg Hgs IH]; intros k a i L.
  - destruct k; [|cbn in L; lia]. cbn [firstn concat grapheme_walk]. rewrite app_nil_r.
    replace (pos_eqb _ _) with true by (symmetry; apply pos_eqb_eq; destruct (from_src_end a); reflexivity). f_equal. lia.
  - destruct k as [|k].
    + cbn [firstn concat grapheme_walk]. rewrite app_nil_r.
      replace (pos_eqb _ _) with true by (symmetry; apply pos_eqb_eq; destruct (from_src_end a); reflexivity). f_equal. lia.
    + cbn [firstn concat grapheme_walk].
      destruct (pos_eqb _ _) eqn:Q.
      { exfalso. apply pos_eqb_eq in Q.
        assert (P : pos_lt (walk a) (walk (a ++ g ++ concat (firstn k gs)))).
        { apply walk_lt. intros Z. apply app_eq_nil in Z as [Z _]. now apply (simple_nonempty g). }
        rewrite <- !from_src_end_walk, <- Q in P. destruct (from_src_end a). cbn in P. now apply pos_lt_irrefl in P. }
      assert (ST := step_simple a g Hg). specialize (IH k (a ++ g) (S i)). rewrite <- app_assoc in IH. rewrite ST in IH. cbn in L.
      destruct (is_newline g); cbn [line col] in IH; rewrite IH by lia; f_equal; lia.
Qed.
Lemma index_finds gs k : Forall simple gs -> (k <= length gs)%nat -> grapheme_index (from_src_end (concat (firstn k gs))) gs = Some k.
Proof.
  intros F L. generalize (walk_finds gs F k [] 0%nat L). cbn [app]. change (line (from_src_end [])) with 1%nat. change (col (from_src_end [])) with 1%nat.
  unfold grapheme_index. destruct (pos_eqb _ _) eqn:Q; [|auto].
  apply pos_eqb_eq in Q. rewrite Q. destruct gs; cbn; auto.
Qed.

(** the position of every boundary between clusters is found again *)
Theorem C52_index : forall gs k, Forall simple gs -> (k <= length gs)%nat ->
  grapheme_index (from_src_end (concat (firstn k gs))) gs = Some k.
Proof. exact index_finds. Qed.
Print Assumptions C52_index.

(** a span between boundaries selects the text between them *)
Theorem C52_selects : forall gs i j, Forall simple gs -> (i <= j)%nat -> (j <= length gs)%nat ->
  let sp := (from_src_end (concat (firstn i gs)), from_src_end (concat (firstn j gs))) in
  exists a t b, concat gs = a ++ t ++ b /\ a = concat (firstn i gs) /\ a ++ t = concat (firstn j gs) /\ substring_exclusive sp gs = Selected t /\
  ((j < length gs)%nat -> exists g b', nth_error gs j = Some g /\ b = g ++ b' /\ substring_inclusive sp gs = Selected (t ++ g)).
Proof.
  intros gs i j F IJ JL sp. exists (concat (firstn i gs)), (concat (firstn (j - i) (skipn i gs))), (concat (skipn j gs)).
  assert (IJ' : firstn i gs ++ firstn (j - i) (skipn i gs) = firstn j gs).
  { rewrite firstn_skipn_comm. replace (i + (j - i))%nat with j by lia.
    rewrite <- (firstn_skipn i (firstn j gs)) at 2. rewrite firstn_firstn. now replace (Nat.min i j) with i by lia. }
  assert (CC : concat (firstn i gs) ++ concat (firstn (j - i) (skipn i gs)) = concat (firstn j gs)).
  { rewrite <- concat_app. f_equal. exact IJ'. }
  split. { rewrite app_assoc. rewrite CC. rewrite <- concat_app. f_equal. symmetry. apply firstn_skipn. }
  split; [reflexivity|]. split; [exact CC|].
  assert (IX : grapheme_index (fst sp) gs = Some i) by (apply index_finds; [assumption|lia]).
  assert (JX : grapheme_index (snd sp) gs = Some j) by (apply index_finds; assumption).
  unfold substring_exclusive, substring_inclusive. rewrite IX, JX. unfold slice_concat.
  replace (Nat.leb i j && Nat.leb j (length gs)) with true by (symmetry; apply andb_true_iff; split; apply PeanoNat.Nat.leb_le; lia).
  split; [reflexivity|]. intros JL'.
  replace (Nat.leb i (S j) && Nat.leb (S j) (length gs)) with true by (symmetry; apply andb_true_iff; split; apply PeanoNat.Nat.leb_le; lia).
  destruct (skipn j gs) as [|g gs'] eqn:Q.
  { exfalso. apply (f_equal (@length _)) in Q. rewrite skipn_length in Q. cbn in Q. lia. }
  exists g, (concat gs'). split; [|split; [reflexivity|]].
  - rewrite <- (firstn_skipn j gs), Q. rewrite nth_error_app2; rewrite firstn_length_le by lia; [|lia]. now rewrite PeanoNat.Nat.sub_diag.
  - f_equal. replace (S j - i)%nat with ((j - i) + 1)%nat by lia.
    rewrite <- (firstn_skipn (j - i) (skipn i gs)) at 1. rewrite skipn_add. replace (i + (j - i))%nat with j by lia. rewrite Q.
    rewrite firstn_app, firstn_firstn. rewrite firstn_length_le by (rewrite skipn_length; lia).
    replace (Nat.min (j - i + 1) (j - i)) with (j - i)%nat by lia. replace (j - i + 1 - (j - i))%nat with 1%nat by lia.
    cbn [firstn]. rewrite concat_app. cbn [concat]. now rewrite app_nil_r.
Qed.
Print Assumptions C52_selects.

(** errors in documents of single-character clusters: the text between the
    cursors, or a panic if the cursors are not in order *)
Definition singles (text : str) : list str := map (fun c => [c]) text.
Lemma singles_concat text : concat (singles text) = text.
Proof. induction text as [|c text IH]; [reflexivity|]. change (c :: concat (singles text) = c :: text). f_equal. exact IH. Qed.
Lemma singles_firstn i text : firstn i (singles text) = singles (firstn i text).
Proof. unfold singles. apply firstn_map. Qed.
Theorem C52_errors : forall {E : Env} {X : XidOk E} tenv o f t text e sp,
  options_from_str o (de_ty tenv f t) text = RError e sp ->
  (exists a u b, text = a ++ u ++ b /\ sp = (from_src_end a, from_src_end (a ++ u)) /\ substring_exclusive sp (singles text) = Selected u) \/
  (exists a u b, u <> [] /\ text = a ++ u ++ b /\ sp = (from_src_end (a ++ u), from_src_end a) /\ substring_exclusive sp (singles text) = SlicePanic).
Proof.
  intros E X tenv o f t text e sp H. apply C21_span_inside in H as (i & j & LI & LJ & ->).
  assert (F : Forall simple (singles text)) by (apply Forall_forall; intros g G; apply in_map_iff in G as (c & <- & _); left; eauto).
  assert (LN : length (singles text) = length text) by apply map_length.
  assert (CI : forall k, from_src_end (firstn k text) = from_src_end (concat (firstn k (singles text)))) by (intros k; now rewrite singles_firstn, singles_concat).
  assert (SP : forall i j, (i <= j)%nat -> exists u b, text = firstn i text ++ u ++ b /\ firstn j text = firstn i text ++ u /\ u = firstn (j - i) (skipn i text)).
  { intros i0 j0 L. exists (firstn (j0 - i0) (skipn i0 text)), (skipn j0 text).
    assert (Q : firstn j0 text = firstn i0 text ++ firstn (j0 - i0) (skipn i0 text)).
    { rewrite firstn_skipn_comm. replace (i0 + (j0 - i0))%nat with j0 by lia.
      rewrite <- (firstn_skipn i0 (firstn j0 text)) at 1. rewrite firstn_firstn. now replace (Nat.min i0 j0) with i0 by lia. }
    rewrite app_assoc, <- Q, firstn_skipn. auto. }
  destruct (Compare_dec.le_lt_dec i j) as [L|L].
  - left. destruct (SP i j L) as (u & b & Q & Q' & U). exists (firstn i text), u, b. split; [assumption|]. rewrite Q'. split; [reflexivity|].
    rewrite <- Q', !CI.
    destruct (C52_selects (singles text) i j F L ltac:(lia)) as (a & u' & b' & _ & -> & AU & -> & _).
    rewrite !singles_firstn, !singles_concat, Q' in AU. apply app_inv_head in AU. now rewrite AU.
  - right. destruct (SP j i ltac:(lia)) as (u & b & Q & Q' & U). exists (firstn j text), u, b. split.
    { intros ->. rewrite app_nil_r in Q'. apply (f_equal (@length _)) in Q'. rewrite !firstn_length_le in Q' by lia. lia. }
    split; [assumption|]. rewrite Q'. split; [reflexivity|]. rewrite <- Q', !CI.
    unfold substring_exclusive. cbn [fst snd]. rewrite !index_finds by (assumption || lia). unfold slice_concat.
    replace (Nat.leb i j) with false; [reflexivity|]. symmetry. apply PeanoNat.Nat.leb_gt. lia.
Qed.
Print Assumptions C52_errors.

#[local] Existing Instance Toy.
#[local] Existing Instance toy_xid.
(** the panic does happen *)
Theorem C52_panic_refuted : exists tenv o f t text e sp, options_from_str o (de_ty tenv f t) text = RError e sp /\
  substring_exclusive sp (singles text) = SlicePanic.
Proof.
  eexists list_env, opts_default, 3%nat, (TInt I8), (lit "_5i8"), _, _. split; vm_compute; reflexivity.
Qed.
Print Assumptions C52_panic_refuted.
(** and columns count characters, so a cluster of several characters shifts the
    text that is selected: here [300] is the error, and [00)] is selected *)
Theorem C52_cluster_refuted : exists tenv o f t gs e sp, gs = [lit "("; [34]; [101; 769]; [34]; lit ","; lit "3"; lit "0"; lit "0"; lit ")"] /\
  options_from_str o (de_ty tenv f t) (concat gs) = RError e sp /\
  sp = (from_src_end (lit "(" ++ [34; 101; 769; 34] ++ lit ","), from_src_end (lit "(" ++ [34; 101; 769; 34] ++ lit ",300")) /\
  substring_exclusive sp gs = Selected (lit "00)").
Proof.
  eexists list_env, opts_default, 3%nat, (TTuple [TStr; TInt U8]), _, _, _. split; [reflexivity|]. split; [vm_compute; reflexivity|]. split; vm_compute; reflexivity.
Qed.
Print Assumptions C52_cluster_refuted.

Example C52_ex : exists sp, options_from_str opts_default (de_ty list_env 9 (TRef 0)) (lit "(h: 300)") = RError EIntegerOutOfBounds sp /\
  substring_exclusive sp (singles (lit "(h: 300)")) = Selected (lit "300").
Proof. eexists. split; vm_compute; reflexivity. Qed.
Example C52_ex_crlf : Forall simple [lit "a"; [13; 10]; lit "b"] /\
  grapheme_index (from_src_end (concat (firstn 2 [lit "a"; [13; 10]; lit "b"]))) [lit "a"; [13; 10]; lit "b"] = Some 2%nat.
Proof. split; [|vm_compute; reflexivity]. constructor; [left; eexists; reflexivity|]. constructor; [right; reflexivity|]. constructor; [left; eexists; reflexivity|constructor]. Qed.
