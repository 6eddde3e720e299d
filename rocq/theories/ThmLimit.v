(** C19: the recursion limit of the deserializer. *)
From Coq Require Import String Ascii NArith ZArith Lia Bool List Permutation.
From Coq Require Import ZifyBool ZifyNat ZifyN.
From Verif Require Import Base Facts Value Data Parse De Span EnvOk Wp LexSafe DeSafe Limit Layout Lit Attr Inv Repr Accept Sound DocSound DocSafe ThmAccept ReprFacts TypedRead TypedMain SerRepr ThmAny Toy Pieces.
Import ListNotations.
Open Scope N_scope.
Open Scope list_scope.

(** Specification: how deeply a value nests at the least, whatever text it is
    read from.  Every container counts for itself and for its elements, an enum
    for itself and for its variant.  An absent optional field and a range may
    come for free, as they need not be written as containers. *)
Definition range_name (n : str) : bool :=
  existsb (str_eqb n) [s_Range; s_RangeInclusive; s_RangeFrom; s_RangeTo; s_RangeToInclusive].
Definition range_entry (kv : val * val) : bool :=
  match kv with
  | (VStr k, (VInt _ _ | VFloat _ _)) => str_eqb k s_start || str_eqb k s_end
  | _ => false
  end.
Definition is_none (v : val) : bool := match v with VNone => true | _ => false end.
Fixpoint least (v : val) : nat :=
  match v with
  | VSome v | VNewtype _ v => S (least v)
  | VSeq l | VTuple l | VTupleStruct _ l => S (max_list (map (fun v => S (least v)) l))
  | VMap es => if forallb range_entry es && negb (is_nil es) then 0%nat
               else S (max_list (map (fun kv => S (Nat.max (least (fst kv)) (least (snd kv)))) es))
  | VStruct n fs => if range_name n then 0%nat
                    else S (max_list (map (fun kv => if is_none (snd kv) then 0%nat else S (least (snd kv))) fs))
  | VUnitVariant _ _ => 2%nat
  | VNewVariant _ _ v => S (S (least v))
  | VTupVariant _ _ l => S (S (max_list (map (fun v => S (least v)) l)))
  | VStructVariant _ _ fs => S (S (max_list (map (fun kv => if is_none (snd kv) then 0%nat else S (least (snd kv))) fs)))
  | _ => 0%nat
  end.

Lemma max_list_le l d : (forall n, In n l -> (n <= d)%nat) -> (max_list l <= d)%nat.
Proof. induction l as [|n l IH]; cbn; intros H; [lia|]. apply Nat.max_lub; auto. Qed.
Lemma max_map_le {A} (f : A -> nat) l d : (forall a, In a l -> (f a <= d)%nat) -> (max_list (map f l) <= d)%nat.
Proof. intros H. apply max_list_le. intros n IN. apply in_map_iff in IN as (a & <- & IN). auto. Qed.
Lemma sepd_each {A} (R : A -> str -> nat -> Prop) l t d : sepd R l t d ->
  forall a, In a l -> exists t' d', R a t' d' /\ (S d' <= d)%nat.
Proof.
  induction 1 as [|a t d R1|a t w d R1 L|a b l t w w' ts d d' R1 L L' S IH]; intros x IN.
  - destruct IN.
  - destruct IN as [<-|[]]. eauto.
  - destruct IN as [<-|[]]. eauto.
  - destruct IN as [<-|IN]; [exists t, d; split; [assumption|lia]|]. destruct (IH x IN) as (t' & d'' & ? & ?). exists t', d''. split; [assumption|lia].
Qed.
Lemma in_insert k v m k' v' : In (k', v') (snd (map_insert k v m)) ->
  (k' = k \/ In k' (map fst m)) /\ (v' = v \/ In v' (map snd m)).
Proof.
  induction m as [|[a b] m IH]; cbn [map_insert snd map fst].
  - intros [Q|[]]. inversion Q. auto.
  - destruct (value_cmp k a); cbn [snd].
    + intros [Q|IN]; [inversion Q; subst; split; [right; now left|now left]|].
      split; right; right; [now apply (in_map fst) in IN|now apply (in_map snd) in IN].
    + intros [Q|[Q|IN]]; [inversion Q; auto|inversion Q; subst; split; right; now left|].
      split; right; right; [now apply (in_map fst) in IN|now apply (in_map snd) in IN].
    + destruct (map_insert k v m) as [o r]. cbn [snd] in *. intros [Q|IN]; [inversion Q; subst; split; right; now left|].
      destruct (IH IN) as [[H1|H1] [H2|H2]]; split; auto; right; now right.
Qed.
Lemma in_of_list l k v : In (k, v) (map_of_list l) -> In k (map fst l) /\ In v (map snd l).
Proof.
  unfold map_of_list.
  assert (G : forall l m, In (k, v) (fold_left (fun m kv => snd (map_insert (fst kv) (snd kv) m)) l m) ->
    (In k (map fst m) \/ In k (map fst l)) /\ (In v (map snd m) \/ In v (map snd l))).
  { clear l. induction l as [|[a b] l IH]; intros m; cbn [fold_left].
    - intros IN. split; left; [now apply (in_map fst) in IN|now apply (in_map snd) in IN].
    - intros IN. apply IH in IN. cbn [fst snd map In] in *.
      destruct IN as [H1 H2]. split.
      + destruct H1 as [H1|H1]; [|auto]. apply in_map_iff in H1 as ([x y] & <- & H1). apply in_insert in H1 as [[<-|H1] _]; auto.
      + destruct H2 as [H2|H2]; [|auto]. apply in_map_iff in H2 as ([x y] & <- & H2). apply in_insert in H2 as [_ [<-|H2]]; auto. }
  intros IN. apply G in IN. cbn in IN. tauto.
Qed.

Section Proofs.
Context {E : Env} {X : XidOk E}.

Lemma atom_least x t : atom x t -> least (embed (norm x)) = 0%nat.
Proof.
  intros H. inversion H; subst; try reflexivity.
  - now destruct n.
  - destruct a, b; reflexivity.
  - destruct a; reflexivity.
  - destruct b; reflexivity.
Qed.
Lemma vacc_least e x : forall b t d, vacc e b x t d -> (least (embed (norm x)) <= d)%nat.
Proof.
  induction x as [x F|x IH|l IH|es IH] using value_ind'; intros b t d V.
  - inversion V; subst; try contradiction; [|cbn; lia].
    match goal with H : atom _ _ |- _ => apply atom_least in H; lia end.
  - inversion V; subst; [match goal with H : atom _ _ |- _ => inversion H end|..];
      cbn [norm embed least]; apply le_n_S; eapply IH; eassumption.
  - assert (K : forall d, sepd (vacc e false) l (skipn 0 []) d \/ (exists t, sepd (vacc e false) l t d) ->
      (least (embed (norm (XSeq l))) <= S d)%nat).
    { intros d' [SE|(t' & SE)]; [cbn in SE|]; cbn [norm embed least]; apply le_n_S; rewrite !map_map; apply max_map_le;
        intros a IN; rewrite all_in in IH; destruct (sepd_each _ _ _ _ SE a IN) as (t1 & d1 & V1 & LE);
        specialize (IH a IN _ _ _ V1); lia. }
    inversion V; subst; [match goal with H : atom _ _ |- _ => apply atom_least in H; lia end|..]; apply K; right; eauto.
  - assert (K : forall d, (forall k v, In (k, v) es -> (least (embed (norm k)) < d)%nat /\ (least (embed (norm v)) < d)%nat) ->
      (least (embed (norm (XMap es))) <= S d)%nat).
    { intros d' H. cbn [norm embed least]. destruct (_ && _); [lia|]. apply le_n_S. rewrite map_map. apply max_map_le.
      intros [k v] IN. cbn [fst snd]. apply in_of_list in IN as [IK IV]. rewrite !map_map in *. cbn [fst snd] in *.
      apply in_map_iff in IK as ([k1 v1] & <- & IK). apply in_map_iff in IV as ([k2 v2] & <- & IV). cbn [fst snd].
      apply H in IK, IV. lia. }
    rewrite all_in in IH.
    inversion V; subst; [match goal with H : atom _ _ |- _ => apply atom_least in H; lia end|..]; apply K; intros k v IN;
      match goal with H : sepd _ _ _ _ |- _ => destruct (sepd_each _ _ _ _ H _ IN) as (t1 & d1 & V1 & LE) end;
      inversion V1; subst; destruct (IH _ IN) as [IK IV]; cbn [fst snd] in *.
    + match goal with H1 : vacc _ _ k _ _, H2 : vacc _ _ v _ _ |- _ => apply IK in H1; apply IV in H2 end. lia.
    + match goal with H1 : key_text k _ _, H2 : vacc _ _ v _ _ |- _ => destruct H1 as (k' & -> & _ & _); apply IV in H2 end. cbn [norm embed least]. lia.
    + match goal with H1 : key_text k _ _, H2 : vacc _ _ v _ _ |- _ => destruct H1 as (k' & -> & _ & _); apply IV in H2 end. cbn [norm embed least]. lia.
Qed.
Lemma range_named name fields ns t : range_syntax name fields ns t -> range_name name = true.
Proof. intros H. inversion H; reflexivity. Qed.
Lemma leaf_least T v t : leaf T v t -> least v = 0%nat.
Proof. intros H. inversion H; reflexivity. Qed.
Lemma in_combine_ex {A B} (l : list A) (l' : list B) b : length l = length l' -> In b l' -> exists a, In (a, b) (combine l l').
Proof.
  revert l'. induction l as [|a l IH]; intros [|b' l']; cbn; try discriminate; intros L IN; [destruct IN|].
  destruct IN as [->|IN]; [eauto|]. destruct (IH l') as (a' & H); [lia|assumption|eauto].
Qed.
Lemma in_given ents fv : In fv (given ents) -> In (fst fv, Some (snd fv)) ents.
Proof.
  unfold given. intros IN. apply in_flat_map in IN as ([k [v|]] & IN & H); [|destruct H].
  destruct H as [<-|[]]. exact IN.
Qed.
Lemma forall2_in {A B} (R : A -> B -> Prop) l l' b : Forall2 R l l' -> In b l' -> exists a, In a l /\ R a b.
Proof. induction 1; intros []; [subst; eauto with datatypes|]. destruct IHForall2 as (? & ? & ?); eauto with datatypes. Qed.
Lemma struct_least e tenv deny fields ents fs t d :
  (forall fv, In fv fs -> forall b T t d, acc e tenv b T (snd fv) t d -> (least (snd fv) <= d)%nat) ->
  sepd (field_text (acc e tenv false) (fun t d => exists x, vacc e false x t d) deny fields) ents t d ->
  struct_of (is_option tenv) fields ents fs ->
  (max_list (map (fun kv : str * val => if is_none (snd kv) then 0%nat else S (least (snd kv))) fs) <= d)%nat.
Proof.
  intros IH SE (_ & _ & F). apply max_map_le. intros fv IN. destruct (is_none (snd fv)) eqn:NO; [lia|].
  destruct (forall2_in _ _ _ _ F IN) as (ft & _ & [G|(_ & Q & _)]); [|rewrite Q in NO; discriminate].
  apply in_given in G. destruct (sepd_each _ _ _ _ SE _ G) as (t' & d' & FT & LE). inversion FT; subst.
  match goal with H : acc _ _ _ _ _ _ _ |- _ => apply (IH fv IN) in H end. lia.
Qed.
Lemma seq_least e tenv T l t d :
  (forall v, In v l -> forall b T t d, acc e tenv b T v t d -> (least v <= d)%nat) ->
  sepd (acc e tenv false T) l t d -> (max_list (map (fun v => S (least v)) l) <= d)%nat.
Proof.
  intros IH SE. apply max_map_le. intros v IN. destruct (sepd_each _ _ _ _ SE _ IN) as (t' & d' & AC & LE).
  apply (IH v IN) in AC. lia.
Qed.
Lemma tuple_least e tenv Ts l t d :
  (forall v, In v l -> forall b T t d, acc e tenv b T v t d -> (least v <= d)%nat) -> length Ts = length l ->
  sepd (fun p => acc e tenv false (fst p) (snd p)) (combine Ts l) t d -> (max_list (map (fun v => S (least v)) l) <= d)%nat.
Proof.
  intros IH LN SE. apply max_map_le. intros v IN. destruct (in_combine_ex Ts l v LN IN) as (T & IC).
  destruct (sepd_each _ _ _ _ SE _ IC) as (t' & d' & AC & LE). apply (IH v IN) in AC. lia.
Qed.
Lemma acc_least e tenv v : forall b T t d, acc e tenv b T v t d -> (least v <= d)%nat.
Proof.
  induction v as [v F|v IH|n v IH|l IH|l IH|n l IH|l IH|n l IH|n k v IH|n k l IH|n k l IH] using val_ind';
    intros b T t d AC; try rewrite all_in in IH;
    match type of AC with acc _ _ _ _ ?v _ _ => remember v as u eqn:QU; symmetry in QU end;
    induction AC; subst; try discriminate; try contradiction;
    try (match goal with H : leaf _ _ _ |- _ => apply leaf_least in H; lia end);
    try (match goal with H : vacc _ _ _ _ _, Q : embed _ = _ |- _ => apply vacc_least in H; rewrite Q in H; exact H
                    | H : vacc _ _ ?x _ _ |- (least (embed (norm ?x)) <= _)%nat => apply vacc_least in H; exact H end);
    try (match goal with H : range_syntax _ _ _ _ |- _ => apply range_named in H; injection QU as -> ->; cbn [least]; rewrite H; lia end);
    try (injection QU; intros; subst); try (cbn [least]; lia); auto.
  all: cbn [least]; try (apply le_n_S; eapply IH; eassumption);
    try (apply le_n_S; eapply seq_least; eassumption); try (apply le_n_S; eapply tuple_least; eassumption);
    try (do 2 apply le_n_S; eapply IH; eassumption); try (do 2 apply le_n_S; eapply tuple_least; eassumption);
    try (do 2 apply le_n_S; eapply struct_least; eassumption);
    try (destruct (range_name _); [lia|]; apply le_n_S; eapply struct_least; eassumption).
  destruct (_ && _); [lia|]. apply le_n_S. apply max_map_le. intros [k v] IN. cbn [fst snd].
  match goal with H : sepd _ _ _ _ |- _ => destruct (sepd_each _ _ _ _ H _ IN) as (t1 & d1 & V1 & LE) end.
  destruct (IH _ IN) as [IK IV]. cbn [fst snd] in *. inversion V1; subst.
  match goal with H1 : acc _ _ _ _ k _ _, H2 : acc _ _ _ _ v _ _ |- _ => apply IK in H1; apply IV in H2 end. lia.
Qed.

(** A limit only ever replaces a result by the failure for exceeding it:
    otherwise the result, including the kind and the place of an error, is that
    of any looser limit and of no limit. *)
Theorem C19_limit_only_fails tenv f T e l l' text : looser l l' ->
  options_from_str (Opts e l) (de_ty tenv f T) text = options_from_str (Opts e l') (de_ty tenv f T) text \/
  exists sp, options_from_str (Opts e l) (de_ty tenv f T) text = RError EExceededRecursionLimit sp.
Proof.
  intros L. destruct (from_str_limit (de_ty tenv f T) e l l' text (sim_ty tenv f T) L) as [H|(s & H)]; [now left|right].
  assert (NP := no_panic tenv (Opts e l) f T text). unfold options_from_str in *. rewrite H in *. cbn [spanned] in *.
  destruct (span_error text s) as [sp|]; [eauto|contradiction].
Qed.
Theorem C19_limit_only_fails_untyped e l l' text : looser l l' ->
  options_from_str (Opts e l) any_value text = options_from_str (Opts e l') any_value text \/
  exists sp, options_from_str (Opts e l) any_value text = RError EExceededRecursionLimit sp.
Proof.
  intros L. destruct (from_str_limit any_value e l l' text sim_any_value L) as [H|(s & H)]; [now left|right].
  assert (NP := any_no_panic (Opts e l) text). unfold options_from_str in *. rewrite H in *. cbn [spanned] in *.
  destruct (span_error text s) as [sp|]; [eauto|contradiction].
Qed.
(** in particular what is accepted within a limit is accepted within any looser
    one, as the same value *)
Theorem C19_monotone tenv f T e l l' text v : looser l l' ->
  options_from_str (Opts e l) (de_ty tenv f T) text = RValue v ->
  options_from_str (Opts e l') (de_ty tenv f T) text = RValue v.
Proof. intros L H. destruct (C19_limit_only_fails tenv f T e l l' text L) as [Q|(sp & Q)]; congruence. Qed.

(** Whatever is accepted, the text has a parse that does not nest deeper than
    the limit, and the value does not either. *)
Theorem C19_nesting tenv f T o text v : options_from_str o (de_ty tenv f T) text = RValue v ->
  within (least v) (o_limit o) /\
  exists t x d, spells o text t x /\ acc x tenv false T v t d /\ within d (o_limit o).
Proof.
  intros H. apply C50_accepted_documents in H as (t & x & d & SP & AC & W). split; [|eauto 6].
  eapply within_le; [eapply acc_least; exact AC|assumption].
Qed.

(** A document that is accepted without a limit, but all of whose parses nest
    deeper than the limit, fails for exceeding it. *)
Theorem C19_too_deep tenv f T e n text v :
  options_from_str (Opts e None) (de_ty tenv f T) text = RValue v ->
  (n < least v \/ forall t x d, spells (Opts e None) text t x -> acc x tenv false T v t d -> n < d)%nat ->
  exists sp, options_from_str (Opts e (Some n)) (de_ty tenv f T) text = RError EExceededRecursionLimit sp.
Proof.
  intros H D. destruct (C19_limit_only_fails tenv f T e (Some n) None text Logic.I) as [Q|Q]; [|exact Q].
  rewrite H in Q. apply C19_nesting in Q as [W (t & x & d & SP & AC & W')]. cbn [o_limit within] in *.
  destruct D as [D|D]; [lia|]. specialize (D t x d SP AC). lia.
Qed.

(** After every value read the budget is what it was before. *)
Theorem C19_budget tenv f T text s v s' : inv text s -> de_ty tenv f T s = Ok v s' -> lim s' = lim s.
Proof.
  intros I H. now destruct (gives_ok _ _ _ _ _ _ (gives_ty text tenv f T) I H) as (_ & L & _).
Qed.

(** The texts of a value of a type are read if the limit admits the value, and
    fail for exceeding the limit if it does not. *)
Theorem C19_documents {FO : FloatOk E} tenv fok e T v w0 a x t w1 n :
  layout w0 -> attrs_text a x -> repr (exts_or x e) (fun _ => True) v t -> final_layout w1 -> typed tenv fok T v ->
  exists m, forall f, (m <= f)%nat ->
    ((need v <= n)%nat -> options_from_str (Opts e (Some n)) (de_ty tenv f T) (w0 ++ a ++ t ++ w1) = RValue v) /\
    ((n < least v)%nat -> exists sp,
       options_from_str (Opts e (Some n)) (de_ty tenv f T) (w0 ++ a ++ t ++ w1) = RError EExceededRecursionLimit sp).
Proof.
  intros L A R F HT.
  destruct (typed_document (fun _ => True) tenv fok (Opts e None) T v w0 a x t w1 L A R F HT Logic.I) as (m1 & H1).
  destruct (Compare_dec.le_lt_dec (need v) n) as [LE|LT].
  - destruct (typed_document (fun _ => True) tenv fok (Opts e (Some n)) T v w0 a x t w1 L A R F HT LE) as (m2 & H2).
    exists (Nat.max m1 m2). intros f LF. split; [intros _; apply H2; lia|].
    intros LT. eapply C19_too_deep; [apply H1; lia|now left].
  - exists m1. intros f LF. split; [lia|]. intros LT'. eapply C19_too_deep; [now apply H1|now left].
Qed.
End Proofs.
Print Assumptions C19_limit_only_fails.
Print Assumptions C19_limit_only_fails_untyped.
Print Assumptions C19_monotone.
Print Assumptions C19_nesting.
Print Assumptions C19_too_deep.
Print Assumptions C19_budget.
Print Assumptions C19_documents.

#[local] Existing Instance Toy.
#[local] Existing Instance toy_xid.
Definition limited (n : nat) : opts := Opts exts_empty (Some n).
(** arrays of arrays: an array and its element count one level each *)
Example C19_example :
  let T := TSeq (TSeq (TSeq (TInt U8))) in
  let v := VSeq [VSeq [VSeq [VInt U8 7]; VSeq []]] in
  let text := lit "[ [[7], [],], ]" in
  least v = 6%nat /\ need v = 6%nat /\
  options_from_str (Opts exts_empty None) (de_ty no_types 9 T) text = RValue v /\
  options_from_str (limited 6) (de_ty no_types 9 T) text = RValue v /\
  (exists sp, options_from_str (limited 5) (de_ty no_types 9 T) text = RError EExceededRecursionLimit sp) /\
  (exists sp, options_from_str (limited 5) (de_ty no_types 9 T) (lit "[[7]]") = RError EExpectedArray sp) /\
  options_from_str (limited 1) (de_ty no_types 9 T) (lit "[]") = RValue (VSeq []) /\
  (exists sp, options_from_str (limited 0) (de_ty no_types 9 T) (lit "[]") = RError EExceededRecursionLimit sp).
Proof. repeat split; try (eexists; vm_compute; reflexivity); vm_compute; reflexivity. Qed.
