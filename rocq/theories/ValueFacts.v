(** Lemmas on the order of numbers, values and maps (C29-C32). *)
From Coq Require Import String Ascii NArith ZArith Lia Bool List.
From Coq Require Import ZifyBool ZifyNat ZifyN.
From Verif Require Import Base Facts Value.
Import ListNotations.
Open Scope N_scope.
Open Scope list_scope.

(** ** Lawful comparison functions on a domain *)
Record lawful {A} (P : A -> Prop) (cmp : A -> A -> comparison) : Prop := {
  cmp_eq : forall x y, P x -> P y -> cmp x y = Eq <-> x = y;
  cmp_opp : forall x y, P x -> P y -> cmp y x = CompOpp (cmp x y);
  cmp_lt : forall x y z, P x -> P y -> P z -> cmp x y = Lt -> cmp y z = Lt -> cmp x z = Lt;
}.

Lemma N_lawful (P : N -> Prop) : lawful P N.compare.
Proof.
  constructor; intros x y; intros.
  - apply N.compare_eq_iff.
  - apply N.compare_antisym.
  - rewrite N.compare_lt_iff in *. lia.
Qed.
Lemma Z_lawful (P : Z -> Prop) : lawful P Z.compare.
Proof.
  constructor; intros x y; intros.
  - apply Z.compare_eq_iff.
  - apply Z.compare_antisym.
  - rewrite Z.compare_lt_iff in *. lia.
Qed.
Lemma bool_lawful (P : bool -> Prop) : lawful P bool_cmp.
Proof. constructor; intros [] []; intros; try destruct z; cbn in *; try split; congruence. Qed.

(** ** Numbers *)
Definition wf_num (n : num) : Prop :=
  match n with NInt _ _ => True | NFloat k b => b < 2 ^ f_bits k end.

Lemma total_key_inj k a b : a < 2 ^ f_bits k -> b < 2 ^ f_bits k -> total_key k a = total_key k b -> a = b.
Proof.
  intros A B. unfold total_key, f_sign, f_abs, f_signbit.
  assert (H : forall x, x < 2 ^ f_bits k -> x = (if N.testbit x (f_bits k - 1) then 2 ^ (f_bits k - 1) else 0) + x mod 2 ^ (f_bits k - 1)).
  { intros x L. rewrite N.testbit_eqb.
    assert (D := N.div_mod' x (2 ^ (f_bits k - 1))).
    assert (M : x mod 2 ^ (f_bits k - 1) < 2 ^ (f_bits k - 1)) by (apply N.mod_lt; destruct k; discriminate).
    assert (E : 2 ^ f_bits k = 2 * 2 ^ (f_bits k - 1)) by (destruct k; reflexivity).
    assert (Q : x / 2 ^ (f_bits k - 1) < 2) by (apply N.div_lt_upper_bound; [destruct k; discriminate|lia]).
    set (q := x / 2 ^ (f_bits k - 1)) in *. set (p := 2 ^ (f_bits k - 1)) in *. set (r := x mod p) in *. clearbody q p r.
    assert (C : q = 0 \/ q = 1) by lia. destruct C as [-> | ->]; cbn; lia. }
  assert (HA := H a A). assert (HB := H b B).
  set (p := 2 ^ (f_bits k - 1)) in *. set (x := a mod p) in *. set (y := b mod p) in *.
  destruct (N.testbit a _), (N.testbit b _); lia.
Qed.
Lemma total_lawful k : lawful (fun b => b < 2 ^ f_bits k) (total_cmp k).
Proof.
  unfold total_cmp. constructor; intros x y; intros.
  - rewrite Z.compare_eq_iff. split; [now apply total_key_inj|congruence].
  - apply Z.compare_antisym.
  - rewrite Z.compare_lt_iff in *. lia.
Qed.

Lemma ik_eqb_eq a b : ik_eqb a b = true <-> a = b.
Proof. destruct a, b; cbn; split; congruence. Qed.
Lemma fk_eqb_eq a b : fk_eqb a b = true <-> a = b.
Proof. destruct a, b; cbn; split; congruence. Qed.
Lemma ik_rank_inj a b : ik_rank a = ik_rank b -> a = b.
Proof. destruct a, b; cbn; congruence. Qed.

Lemma num_cmp_cases a b :
  (num_rank a = num_rank b /\ match a, b with
    | NInt k x, NInt k' y => k = k' /\ num_cmp a b = Z.compare x y
    | NFloat k x, NFloat k' y => k = k' /\ num_cmp a b = total_cmp k x y
    | _, _ => False end) \/
  (num_rank a <> num_rank b /\ num_cmp a b = N.compare (num_rank a) (num_rank b)).
Proof.
  destruct a as [k x|k x], b as [k' y|k' y]; cbn [num_cmp].
  - destruct (ik_eqb k k') eqn:Q.
    + apply ik_eqb_eq in Q as ->. left. auto.
    + right. split; [|reflexivity]. cbn. intros H. apply ik_rank_inj in H as ->.
      assert (R := proj2 (ik_eqb_eq k' k') eq_refl). congruence.
  - right. split; [|reflexivity]. destruct k, k'; cbn; lia.
  - right. split; [|reflexivity]. destruct k, k'; cbn; lia.
  - destruct k, k'; cbn [fk_eqb]; auto; right; (split; [cbn; lia|reflexivity]).
Qed.

Lemma num_lawful : lawful wf_num num_cmp.
Proof.
  constructor.
  - intros x y Px Py. destruct (num_cmp_cases x y) as [[R C]|[R ->]].
    + destruct x as [k x|k x], y as [k' y|k' y]; try contradiction; destruct C as [<- ->].
      * rewrite Z.compare_eq_iff. split; [intros ->; reflexivity|congruence].
      * rewrite (cmp_eq _ _ (total_lawful k)) by assumption. split; [intros ->; reflexivity|congruence].
    + rewrite N.compare_eq_iff. split; [contradiction|]. intros ->. contradiction.
  - intros x y Px Py. destruct (num_cmp_cases x y) as [[R C]|[R ->]], (num_cmp_cases y x) as [[R' C']|[R' ->]]; try congruence.
    + destruct x as [k x|k x], y as [k' y|k' y]; try contradiction; destruct C as [<- ->], C' as [_ ->].
      * apply Z.compare_antisym.
      * now apply (cmp_opp _ _ (total_lawful k)).
    + apply N.compare_antisym.
  - intros x y z Px Py Pz.
    destruct (num_cmp_cases x y) as [[R C]|[R ->]], (num_cmp_cases y z) as [[R' C']|[R' ->]],
      (num_cmp_cases x z) as [[R2 C2]|[R2 ->]]; try congruence; rewrite ?N.compare_lt_iff; try lia.
    destruct x as [k x|k x], y as [k' y|k' y], z as [k2 z|k2 z]; try contradiction;
      destruct C as [<- ->], C' as [<- ->], C2 as [_ ->].
    + apply (cmp_lt _ _ (Z_lawful (fun _ => True))); auto.
    + now apply (cmp_lt _ _ (total_lawful k)).
Qed.

(** ** Lists and pairs *)
Lemma lex_opp a b : CompOpp (lex a b) = lex (CompOpp a) (CompOpp b).
Proof. now destruct a. Qed.

Lemma lawful_weaken {A} (P Q : A -> Prop) cmp : (forall x, Q x -> P x) -> lawful P cmp -> lawful Q cmp.
Proof. intros H [H1 H2 H3]. constructor; intros; eauto. Qed.
Lemma cmp_refl {A} (P : A -> Prop) cmp x : lawful P cmp -> P x -> cmp x x = Eq.
Proof. intros L H. now apply (cmp_eq _ _ L). Qed.

Definition pair_cmp {A B} (ca : A -> A -> comparison) (cb : B -> B -> comparison) (x y : A * B) :=
  lex (ca (fst x) (fst y)) (cb (snd x) (snd y)).
Lemma pair_lawful {A B} (P : A -> Prop) (Q : B -> Prop) ca cb :
  lawful P ca -> lawful Q cb -> lawful (fun x => P (fst x) /\ Q (snd x)) (pair_cmp ca cb).
Proof.
  intros LA LB. unfold pair_cmp. constructor.
  - intros [a b] [c d] [Pa Qb] [Pc Qd]. cbn in *. split.
    + destruct (ca a c) eqn:C; cbn; try discriminate. intros D.
      apply (cmp_eq _ _ LA) in C; auto. apply (cmp_eq _ _ LB) in D; auto. congruence.
    + intros [= <- <-]. rewrite (cmp_refl P), (cmp_refl Q); auto.
  - intros [a b] [c d] [Pa Qb] [Pc Qd]. cbn in *. rewrite lex_opp.
    rewrite <- (cmp_opp _ _ LA), <- (cmp_opp _ _ LB); auto.
  - intros [a b] [c d] [e f] [Pa Qb] [Pc Qd] [Pe Qf]. cbn in *.
    destruct (ca a c) eqn:C, (ca c e) eqn:D; cbn; try discriminate.
    + apply (cmp_eq _ _ LA) in C; auto. subst. rewrite D. cbn. apply (cmp_lt _ _ LB); auto.
    + apply (cmp_eq _ _ LA) in C; auto. subst. now rewrite D.
    + apply (cmp_eq _ _ LA) in D; auto. subst. now rewrite C.
    + now rewrite (cmp_lt _ _ LA a c e).
Qed.

Lemma list_lawful {A} (P : A -> Prop) cmp : lawful P cmp -> lawful (Forall P) (list_cmp cmp).
Proof.
  intros L. constructor.
  - intros x y Px. revert y. induction Px as [|a x Pa Px IH]; intros [|b y] Py; cbn; try (split; congruence).
    inversion Py; subst. destruct (cmp a b) eqn:C; cbn.
    + rewrite IH by assumption. apply (cmp_eq _ _ L) in C; auto. subst. split; congruence.
    + split; [discriminate|]. intros [= -> ->]. rewrite (cmp_refl P) in C; congruence.
    + split; [discriminate|]. intros [= -> ->]. rewrite (cmp_refl P) in C; congruence.
  - intros x y Px. revert y. induction Px as [|a x Pa Px IH]; intros [|b y] Py; cbn; try reflexivity.
    inversion Py; subst. rewrite lex_opp, <- (cmp_opp _ _ L), <- IH; auto.
  - intros x y z Px. revert y z. induction Px as [|a x Pa Px IH]; intros [|b y] [|c z] Py Pz; cbn; try congruence.
    inversion Py; inversion Pz; subst.
    destruct (cmp a b) eqn:C, (cmp b c) eqn:D; cbn; try discriminate.
    + apply (cmp_eq _ _ L) in C; auto. subst. rewrite D. cbn. now apply IH.
    + apply (cmp_eq _ _ L) in C; auto. subst. now rewrite D.
    + apply (cmp_eq _ _ L) in D; auto. subst. now rewrite C.
    + now rewrite (cmp_lt _ _ L a b c).
Qed.

(** ** Values *)

(** floats are bit patterns of their width, everywhere in the value *)
Fixpoint wf_value (v : value) : Prop :=
  match v with
  | XNum n => wf_num n
  | XSome v => wf_value v
  | XSeq l => (fix go (l : list value) := match l with [] => True | v :: l => wf_value v /\ go l end) l
  | XMap m => (fix go (m : list (value * value)) :=
                 match m with [] => True | (k, v) :: m => (wf_value k /\ wf_value v) /\ go m end) m
  | _ => True
  end.
Definition wf_entry (kv : value * value) : Prop := wf_value (fst kv) /\ wf_value (snd kv).
Lemma wf_seq l : wf_value (XSeq l) <-> Forall wf_value l.
Proof.
  induction l as [|v l IH]; [split; constructor|]. split.
  - intros [A B]. constructor; [assumption|]. now apply IH.
  - intros H. inversion H; subst. split; [assumption|]. now apply IH.
Qed.
Lemma wf_map m : wf_value (XMap m) <-> Forall wf_entry m.
Proof.
  induction m as [|[k v] m IH]; [split; constructor|]. split.
  - intros [A B]. constructor; [assumption|]. now apply IH.
  - intros H. inversion H; subst. split; [assumption|]. now apply IH.
Qed.

Fixpoint vsize (v : value) : nat :=
  match v with
  | XSome v => S (vsize v)
  | XSeq l => S (fold_right (fun v n => vsize v + n)%nat O l)
  | XMap m => S (fold_right (fun kv n => vsize (fst kv) + vsize (snd kv) + n)%nat O m)
  | _ => 1%nat
  end.
Lemma vsize_seq l v : In v l -> (vsize v < vsize (XSeq l))%nat.
Proof.
  cbn [vsize]. induction l as [|w l IH]; [contradiction|]. intros [<-|H]; cbn [fold_right]; [lia|]. apply IH in H. lia.
Qed.
Lemma vsize_map m kv : In kv m -> (vsize (fst kv) < vsize (XMap m) /\ vsize (snd kv) < vsize (XMap m))%nat.
Proof.
  cbn [vsize]. induction m as [|w l IH]; [contradiction|]. intros [<-|H]; cbn [fold_right]; [lia|]. apply IH in H. lia.
Qed.

Lemma value_cmp_seq x y : value_cmp (XSeq x) (XSeq y) = list_cmp value_cmp x y.
Proof.
  revert y. induction x as [|v x IH]; intros [|w y]; try reflexivity.
  cbn [list_cmp]. rewrite <- IH. reflexivity.
Qed.
Lemma value_cmp_map x y : value_cmp (XMap x) (XMap y) = list_cmp (pair_cmp value_cmp value_cmp) x y.
Proof.
  revert y. induction x as [|[k v] x IH]; intros [|[k' v'] y]; try reflexivity.
  cbn [list_cmp]. rewrite <- IH. unfold pair_cmp. cbn [fst snd].
  change (value_cmp (XMap ((k, v) :: x)) (XMap ((k', v') :: y)))
    with (lex (value_cmp k k') (lex (value_cmp v v') (value_cmp (XMap x) (XMap y)))).
  now destruct (value_cmp k k').
Qed.

Definition below (n : nat) (v : value) : Prop := wf_value v /\ (vsize v < n)%nat.
Lemma below_seq n l : below (S n) (XSeq l) -> Forall (below n) l.
Proof.
  intros [W L]. apply wf_seq in W. apply Forall_forall. intros v I. rewrite Forall_forall in W.
  split; [auto|]. apply vsize_seq in I. lia.
Qed.
Lemma below_map n l : below (S n) (XMap l) -> Forall (fun kv => below n (fst kv) /\ below n (snd kv)) l.
Proof.
  intros [W L]. apply wf_map in W. apply Forall_forall. intros v I. rewrite Forall_forall in W.
  destruct (W v I). apply vsize_map in I. unfold below. repeat split; auto; lia.
Qed.
Lemma below_some n v : below (S n) (XSome v) -> below n v.
Proof. intros [W L]. cbn in *. split; [assumption|lia]. Qed.

Lemma value_cmp_rank a b : value_rank a <> value_rank b -> value_cmp a b = N.compare (value_rank a) (value_rank b).
Proof. destruct a, b; cbn [value_rank]; intros H; try reflexivity; now destruct H. Qed.
Lemma value_cmp_lt_rank a b : value_cmp a b = Lt -> value_rank a <= value_rank b.
Proof.
  intros H. destruct (N.eq_dec (value_rank a) (value_rank b)) as [E|E]; [lia|].
  rewrite value_cmp_rank in H by assumption. rewrite N.compare_lt_iff in H. lia.
Qed.

Local Ltac same_rank := match goal with
  | H : value_rank ?a = value_rank ?b |- _ => destruct a, b; try discriminate H; clear H end.

Lemma value_lawful_below n : lawful (below n) value_cmp.
Proof.
  induction n as [|n IH]; [constructor; intros; match goal with H : below 0 _ |- _ => destruct H; lia end|].
  assert (LS := list_lawful _ _ IH). assert (LM := list_lawful _ _ (pair_lawful _ _ _ _ IH IH)).
  assert (LN := list_lawful _ _ (N_lawful (fun _ => True))).
  assert (T : forall l : list N, Forall (fun _ => True) l) by (intros; now apply Forall_forall).
  constructor.
  - intros x y Px Py. destruct (N.eq_dec (value_rank x) (value_rank y)) as [E|E].
    + same_rank; rewrite ?value_cmp_seq, ?value_cmp_map; try (cbn; split; congruence).
      * cbn. rewrite (cmp_eq _ _ (bool_lawful (fun _ => True))) by auto. split; congruence.
      * cbn. rewrite N.compare_eq_iff. split; congruence.
      * apply below_map in Px, Py. rewrite (cmp_eq _ _ LM) by assumption. split; congruence.
      * cbn. destruct Px, Py. rewrite (cmp_eq _ _ num_lawful) by assumption. split; congruence.
      * apply below_some in Px, Py. cbn. rewrite (cmp_eq _ _ IH) by assumption. split; congruence.
      * cbn. rewrite (cmp_eq _ _ LN) by auto. split; congruence.
      * cbn. rewrite (cmp_eq _ _ LN) by auto. split; congruence.
      * apply below_seq in Px, Py. rewrite (cmp_eq _ _ LS) by assumption. split; congruence.
    + rewrite value_cmp_rank by assumption. rewrite N.compare_eq_iff. split; congruence.
  - intros x y Px Py. destruct (N.eq_dec (value_rank x) (value_rank y)) as [E|E].
    + same_rank; rewrite ?value_cmp_seq, ?value_cmp_map; try reflexivity.
      * apply (cmp_opp _ _ (bool_lawful (fun _ => True))); auto.
      * apply N.compare_antisym.
      * apply below_map in Px, Py. now apply (cmp_opp _ _ LM).
      * destruct Px as [Px _], Py as [Py _]. exact (cmp_opp _ _ num_lawful _ _ Px Py).
      * apply below_some in Px, Py. exact (cmp_opp _ _ IH _ _ Px Py).
      * cbn. apply (cmp_opp _ _ LN); auto.
      * cbn. apply (cmp_opp _ _ LN); auto.
      * apply below_seq in Px, Py. now apply (cmp_opp _ _ LS).
    + rewrite !value_cmp_rank by auto. apply N.compare_antisym.
  - intros x y z Px Py Pz XY YZ.
    assert (R1 := value_cmp_lt_rank _ _ XY). assert (R2 := value_cmp_lt_rank _ _ YZ).
    destruct (N.eq_dec (value_rank x) (value_rank z)) as [E|E].
    + assert (E2 : value_rank x = value_rank y) by lia. clear R1 R2.
      destruct x, z; try discriminate E; destruct y; try discriminate E2; clear E E2;
        rewrite ?value_cmp_seq, ?value_cmp_map in *; try discriminate; try assumption.
      * apply (cmp_lt _ _ (bool_lawful (fun _ => True))) with b1; auto.
      * apply (cmp_lt _ _ (N_lawful (fun _ => True))) with c1; auto.
      * apply below_map in Px, Py, Pz. now apply (cmp_lt _ _ LM) with m1.
      * destruct Px as [Px _], Py as [Py _], Pz as [Pz _]. exact (cmp_lt _ _ num_lawful _ _ _ Px Py Pz XY YZ).
      * apply below_some in Px, Py, Pz. exact (cmp_lt _ _ IH _ _ _ Px Py Pz XY YZ).
      * apply (cmp_lt _ _ LN) with s1; auto.
      * apply (cmp_lt _ _ LN) with b1; auto.
      * apply below_seq in Px, Py, Pz. now apply (cmp_lt _ _ LS) with l1.
    + rewrite value_cmp_rank by assumption. rewrite N.compare_lt_iff. lia.
Qed.

Lemma value_lawful : lawful wf_value value_cmp.
Proof.
  assert (B : forall v, wf_value v -> below (S (vsize v)) v) by (intros; split; auto).
  assert (M : forall n m v, (n <= m)%nat -> below n v -> below m v) by (intros ? ? ? ? []; split; auto; lia).
  constructor; intros x y.
  - intros Px Py. apply (cmp_eq _ _ (value_lawful_below (S (vsize x + vsize y)))); (eapply M; [|apply B; assumption]); lia.
  - intros Px Py. apply (cmp_opp _ _ (value_lawful_below (S (vsize x + vsize y)))); (eapply M; [|apply B; assumption]); lia.
  - intros z Px Py Pz. apply (cmp_lt _ _ (value_lawful_below (S (vsize x + vsize y + vsize z))));
      (eapply M; [|apply B; assumption]); lia.
Qed.

(** ** Text order is byte order *)
Lemma list_cmp_app_lt a b x y : a < b -> list_cmp N.compare (a :: x) (b :: y) = Lt.
Proof. intros H. cbn [list_cmp]. apply N.compare_lt_iff in H. now rewrite H. Qed.
Lemma list_cmp_app_eq a b x y : a = b -> list_cmp N.compare (a :: x) (b :: y) = list_cmp N.compare x y.
Proof. intros ->. cbn [list_cmp]. now rewrite N.compare_refl. Qed.
Lemma div_lt_or_eq a b n : n <> 0 -> a < b -> a / n < b / n \/ (a / n = b / n /\ a mod n < b mod n).
Proof.
  intros Z H. assert (A := N.div_mod' a n). assert (B := N.div_mod' b n).
  assert (M1 := N.mod_lt a n Z). assert (M2 := N.mod_lt b n Z).
  assert (L : a / n <= b / n) by (apply N.div_le_mono; lia).
  destruct (N.eq_dec (a / n) (b / n)) as [E|E]; [right|left; lia]. split; [assumption|]. rewrite E in A. lia.
Qed.
Lemma enc_char_lt a b x y : a < b -> b < 1114112 ->
  list_cmp N.compare (enc_char a ++ x) (enc_char b ++ y) = Lt.
Proof.
  intros H M. unfold enc_char.
  destruct (a <? 128) eqn:A1; [|destruct (a <? 2048) eqn:A2; [|destruct (a <? 65536) eqn:A3]];
  (destruct (b <? 128) eqn:B1; [|destruct (b <? 2048) eqn:B2; [|destruct (b <? 65536) eqn:B3]]); cbn [app];
  try (exfalso; lia);
  try (apply list_cmp_app_lt; Z.to_euclidean_division_equations; lia).
  - destruct (div_lt_or_eq a b 64) as [L|[L R]]; [discriminate|assumption|apply list_cmp_app_lt; lia|].
    rewrite list_cmp_app_eq by lia. apply list_cmp_app_lt. lia.
  - assert (Da : a / 4096 = a / 64 / 64) by now rewrite N.div_div. assert (Db : b / 4096 = b / 64 / 64) by now rewrite N.div_div.
    destruct (div_lt_or_eq a b 64) as [L|[L R]]; [discriminate|assumption| |].
    + destruct (div_lt_or_eq (a/64) (b/64) 64) as [L2|[L2 R2]]; [discriminate|assumption|apply list_cmp_app_lt; lia|].
      rewrite list_cmp_app_eq by lia. apply list_cmp_app_lt. lia.
    + rewrite Da, Db, L. rewrite !list_cmp_app_eq by reflexivity. apply list_cmp_app_lt. lia.
  - assert (Da : a / 4096 = a / 64 / 64) by now rewrite N.div_div. assert (Db : b / 4096 = b / 64 / 64) by now rewrite N.div_div.
    assert (Ea : a / 262144 = a / 64 / 64 / 64) by now rewrite !N.div_div. assert (Eb : b / 262144 = b / 64 / 64 / 64) by now rewrite !N.div_div.
    rewrite Ea, Eb, Da, Db.
    destruct (div_lt_or_eq a b 64) as [L|[L R]]; [discriminate|assumption| |].
    + destruct (div_lt_or_eq (a/64) (b/64) 64) as [L2|[L2 R2]]; [discriminate|assumption| |].
      * destruct (div_lt_or_eq (a/64/64) (b/64/64) 64) as [L3|[L3 R3]]; [discriminate|assumption|apply list_cmp_app_lt; lia|].
        rewrite list_cmp_app_eq by lia. apply list_cmp_app_lt. lia.
      * rewrite L2. rewrite !list_cmp_app_eq by reflexivity. apply list_cmp_app_lt. lia.
    + rewrite L. rewrite !list_cmp_app_eq by reflexivity. apply list_cmp_app_lt. lia.
Qed.
Lemma list_cmp_prefix p x y : list_cmp N.compare (p ++ x) (p ++ y) = list_cmp N.compare x y.
Proof. induction p as [|a p IH]; [reflexivity|]. cbn [app]. now rewrite list_cmp_app_eq. Qed.
Lemma enc_char_nonempty c : exists b l, enc_char c = b :: l.
Proof. unfold enc_char. repeat match goal with |- context [if ?x then _ else _] => destruct x end; eauto. Qed.
Lemma scalar_bound c : is_scalar c = true -> c < 1114112.
Proof. unfold is_scalar. lia. Qed.
Lemma enc_order s t : wf_str s -> wf_str t -> list_cmp N.compare (enc s) (enc t) = list_cmp N.compare s t.
Proof.
  intros Ws. revert t. induction Ws as [|a s Ha Ws IH]; intros [|b t] Wt.
  - reflexivity.
  - cbn. destruct (enc_char_nonempty b) as (z & l & ->). reflexivity.
  - cbn. destruct (enc_char_nonempty a) as (z & l & ->). reflexivity.
  - inversion Wt; subst. cbn [enc flat_map list_cmp].
    assert (Ba := scalar_bound _ Ha). assert (Bb := scalar_bound _ H1).
    destruct (N.compare_spec a b) as [E|E|E]; cbn.
    + subst. rewrite list_cmp_prefix. now apply IH.
    + now apply enc_char_lt.
    + rewrite (cmp_opp _ _ (list_lawful _ _ (N_lawful (fun _ => True)))); try (apply Forall_forall; auto).
      rewrite enc_char_lt; auto.
Qed.

(** ** Maps *)
Fixpoint sorted (m : list (value * value)) : Prop :=
  match m with
  | [] => True
  | (k, _) :: m' => (forall k' v', In (k', v') m' -> value_cmp k k' = Lt) /\ sorted m'
  end.

Lemma value_cmp_gt a b : wf_value a -> wf_value b -> value_cmp a b = Gt -> value_cmp b a = Lt.
Proof. intros A B H. rewrite (cmp_opp _ _ value_lawful a b) by assumption. now rewrite H. Qed.
Lemma value_cmp_eq a b : wf_value a -> wf_value b -> value_cmp a b = Eq -> a = b.
Proof. intros A B. now apply (cmp_eq _ _ value_lawful). Qed.
Lemma value_cmp_refl a : wf_value a -> value_cmp a a = Eq.
Proof. apply (cmp_refl _ _ _ value_lawful). Qed.
Lemma value_cmp_trans a b c : wf_value a -> wf_value b -> wf_value c ->
  value_cmp a b = Lt -> value_cmp b c = Lt -> value_cmp a c = Lt.
Proof. apply (cmp_lt _ _ value_lawful). Qed.

Definition good (m : list (value * value)) : Prop := Forall wf_entry m /\ sorted m.

Lemma sorted_get_in m k v : good m -> wf_value k -> map_get k m = Some v <-> In (k, v) m.
Proof.
  intros [W S] K. induction m as [|[k' v'] m IH]; [split; [discriminate|contradiction]|].
  inversion W as [|? ? [Wk Wv] W']; subst. destruct S as [S1 S2]. specialize (IH W' S2). cbn in Wk, Wv.
  cbn [map_get]. destruct (value_cmp k k') eqn:C.
  - apply value_cmp_eq in C; auto. subst. split.
    + intros [= ->]. now left.
    + intros [[= ->]|I]; [reflexivity|]. apply S1 in I. now rewrite value_cmp_refl in I.
  - split; [discriminate|]. intros [[= -> ->]|I]; [now rewrite value_cmp_refl in C|].
    assert (Wk' : wf_value k /\ wf_value v) by (rewrite Forall_forall in W'; exact (W' _ I)).
    assert (X := value_cmp_trans _ _ _ Wk K Wk (S1 _ _ I) C). now rewrite value_cmp_refl in X.
  - rewrite IH. split; [now right|]. intros [[= -> ->]|I]; [now rewrite value_cmp_refl in C|assumption].
Qed.

Lemma insert_in m k v k' v' : In (k', v') (snd (map_insert k v m)) -> (k' = k \/ (exists w, In (k', w) m)) /\ (v' = v \/ In (k', v') m).
Proof.
  induction m as [|[a b] m IH]; cbn [map_insert].
  - cbn. intros [[= <- <-]|[]]. auto.
  - destruct (value_cmp k a) eqn:C; cbn [snd].
    + intros [[= <- <-]|I]; [split; [right; exists b; now left|now left]|].
      split; right; [exists v'|]; now right.
    + intros [[= <- <-]|I]; [auto|]. split; right; [exists v'|]; assumption.
    + destruct (map_insert k v m) as [o r] eqn:E; cbn [snd] in *. intros [[= <- <-]|I].
      * split; right; [exists b|]; now left.
      * destruct (IH I) as [[->|[w J]] [->|J']]; split; auto; right; try (exists w; now right); now right.
Qed.
Lemma insert_wf m k v : Forall wf_entry m -> wf_value k -> wf_value v -> Forall wf_entry (snd (map_insert k v m)).
Proof.
  intros W K V. rewrite Forall_forall in *. intros [k' v'] I. apply insert_in in I as [H1 H2]. split; cbn.
  - destruct H1 as [->|[w J]]; [assumption|]. now destruct (W _ J).
  - destruct H2 as [->|J]; [assumption|]. now destruct (W _ J).
Qed.
Lemma insert_good m k v : good m -> wf_value k -> wf_value v -> good (snd (map_insert k v m)).
Proof.
  intros [W S] K V. split; [now apply insert_wf|].
  induction m as [|[a b] m IH]; [cbn; split; [intros ? ? []|exact I]|].
  inversion W as [|? ? [Wa Wb] W']; subst. destruct S as [S1 S2]. specialize (IH W' S2). cbn in Wa, Wb.
  cbn [map_insert]. destruct (value_cmp k a) eqn:C; cbn [snd].
  - split; assumption.
  - split; [|split; assumption]. intros k' v' [[= <- <-]|I]; [assumption|].
    assert (W2 : wf_value k' /\ wf_value v') by (rewrite Forall_forall in W'; exact (W' _ I)).
    eapply value_cmp_trans; [..|exact (S1 _ _ I)]; tauto.
  - destruct (map_insert k v m) as [o r] eqn:E. cbn [snd] in *. split; [|assumption].
    intros k' v' I. assert (I' : In (k', v') (snd (map_insert k v m))) by now rewrite E.
    apply insert_in in I' as [[->|[w J]] _]; [now apply value_cmp_gt|eauto].
Qed.
Lemma get_insert m k v k' : good m -> wf_value k -> wf_value v -> wf_value k' ->
  map_get k' (snd (map_insert k v m)) = if value_eqb k' k then Some v else map_get k' m.
Proof.
  intros [W S] K V K'. unfold value_eqb. induction m as [|[a b] m IH].
  - cbn. now destruct (value_cmp k' k).
  - inversion W as [|? ? [Wa Wb] W']; subst. destruct S as [S1 S2]. specialize (IH W' S2). cbn in Wa, Wb.
    cbn [map_insert]. destruct (value_cmp k a) eqn:C; cbn [snd].
    + apply value_cmp_eq in C; auto. subst. cbn [map_get]. now destruct (value_cmp k' a).
    + cbn [map_get]. destruct (value_cmp k' k) eqn:D; try reflexivity.
      now rewrite (value_cmp_trans k' k a).
    + destruct (map_insert k v m) as [o r] eqn:E. cbn [snd] in *. cbn [map_get].
      destruct (value_cmp k' a) eqn:D; [| |exact IH].
      * apply value_cmp_eq in D; auto. subst. rewrite (cmp_opp _ _ value_lawful) by assumption. now rewrite C.
      * apply value_cmp_gt in C; auto. now rewrite (value_cmp_trans k' a k).
Qed.
Lemma insert_prev m k v : fst (map_insert k v m) = map_get k m.
Proof.
  induction m as [|[a b] m IH]; [reflexivity|]. cbn [map_insert map_get].
  destruct (value_cmp k a); try reflexivity. destruct (map_insert k v m). assumption.
Qed.

Lemma remove_in m k kv : In kv (snd (map_remove k m)) -> In kv m.
Proof.
  induction m as [|[a b] m IH]; [contradiction|]. cbn [map_remove].
  destruct (value_cmp k a); cbn [snd]; auto; [now right|].
  destruct (map_remove k m) as [o r]. cbn [snd] in *. intros [<-|I]; [now left|right; auto].
Qed.
Lemma remove_good m k : good m -> good (snd (map_remove k m)).
Proof.
  intros [W S]. split.
  - rewrite Forall_forall in *. intros x I. apply remove_in in I. auto.
  - clear W. induction m as [|[a b] m IH]; [exact I|]. destruct S as [S1 S2]. cbn [map_remove].
    destruct (value_cmp k a); cbn [snd]; [assumption|split; assumption|].
    destruct (map_remove k m) as [o r] eqn:E. cbn [snd] in *. split; [|auto].
    intros k' v' J. apply (S1 k' v'). apply (remove_in m k). now rewrite E.
Qed.
Lemma get_below m k : (forall k' v', In (k', v') m -> value_cmp k k' = Lt) -> map_get k m = None.
Proof. destruct m as [|[a b] m]; [reflexivity|]. intros H. cbn. rewrite (H a b); [reflexivity|now left]. Qed.
Lemma get_remove m k k' : good m -> wf_value k -> wf_value k' ->
  map_get k' (snd (map_remove k m)) = if value_eqb k' k then None else map_get k' m.
Proof.
  intros [W S] K K'. unfold value_eqb. induction m as [|[a b] m IH].
  - cbn. now destruct (value_cmp k' k).
  - inversion W as [|? ? [Wa Wb] W']; subst. destruct S as [S1 S2]. specialize (IH W' S2). cbn in Wa, Wb.
    cbn [map_remove]. destruct (value_cmp k a) eqn:C; cbn [snd].
    + apply value_cmp_eq in C; auto. subst. cbn [map_get].
      destruct (value_cmp k' a) eqn:D; [| |reflexivity].
      * apply value_cmp_eq in D; auto. subst. now apply get_below.
      * apply get_below. intros k2 v2 I. rewrite Forall_forall in W'. destruct (W' _ I) as [X _]. cbn in X.
        eapply (value_cmp_trans k' a k2); auto. exact (S1 _ _ I).
    + cbn [map_get]. destruct (value_cmp k' k) eqn:D; try reflexivity.
      apply value_cmp_eq in D; auto. subst. now rewrite C.
    + destruct (map_remove k m) as [o r] eqn:E. cbn [snd] in *. cbn [map_get].
      destruct (value_cmp k' a) eqn:D; [| |exact IH].
      * apply value_cmp_eq in D; auto. subst. rewrite (cmp_opp _ _ value_lawful) by assumption. now rewrite C.
      * destruct (value_cmp k' k) eqn:D'; reflexivity.
Qed.
Lemma remove_prev m k : fst (map_remove k m) = map_get k m.
Proof.
  induction m as [|[a b] m IH]; [reflexivity|]. cbn [map_remove map_get].
  destruct (value_cmp k a); try reflexivity. destruct (map_remove k m). assumption.
Qed.
Lemma retain_good m p : good m -> good (map_retain p m).
Proof.
  intros [W S]. unfold map_retain. split.
  - rewrite Forall_forall in *. intros x I. apply filter_In in I as [I _]. auto.
  - clear W. induction m as [|[a b] m IH]; [exact I|]. destruct S as [S1 S2]. cbn [filter].
    destruct (p (fst (a, b)) (snd (a, b))); [split|]; auto.
    intros k' v' J. apply filter_In in J as [J _]. eauto.
Qed.
Lemma get_retain m p k : good m -> wf_value k ->
  map_get k (map_retain p m) = match map_get k m with
                               | Some v => if p k v then Some v else None
                               | None => None end.
Proof.
  intros G K. assert (G2 := retain_good m p G).
  assert (H : forall v, map_get k (map_retain p m) = Some v <-> map_get k m = Some v /\ p k v = true).
  { intros v. rewrite !sorted_get_in by assumption. unfold map_retain. now rewrite filter_In. }
  destruct (map_get k m) as [v|] eqn:E.
  - destruct (p k v) eqn:P.
    + now apply H.
    + destruct (map_get k (map_retain p m)) as [w|]; [|reflexivity]. destruct (H w) as [[H1 H2] _]; [reflexivity|].
      injection H1 as ->. congruence.
  - destruct (map_get k (map_retain p m)) as [w|]; [|reflexivity]. destruct (H w) as [[H1 H2] _]; [reflexivity|]. discriminate.
Qed.

(** histories *)
Inductive map_op := Insert (k v : value) | Remove (k : value) | Retain (p : value -> value -> bool).
Definition map_apply (m : list (value * value)) (o : map_op) : list (value * value) :=
  match o with
  | Insert k v => snd (map_insert k v m)
  | Remove k => snd (map_remove k m)
  | Retain p => map_retain p m
  end.
Definition op_ok (o : map_op) : Prop :=
  match o with Insert k v => wf_value k /\ wf_value v | Remove k => wf_value k | Retain _ => True end.
(** what a key is bound to after the history: a function update per operation *)
Definition spec_apply (g : value -> option value) (o : map_op) (k : value) : option value :=
  match o with
  | Insert k' v => if value_eqb k k' then Some v else g k
  | Remove k' => if value_eqb k k' then None else g k
  | Retain p => match g k with Some v => if p k v then Some v else None | None => None end
  end.
Definition run_ops (l : list map_op) : list (value * value) := fold_left map_apply l [].

Lemma apply_good m o : good m -> op_ok o -> good (map_apply m o).
Proof. destruct o; cbn; intros; [apply insert_good|apply remove_good|apply retain_good]; tauto. Qed.
Lemma run_good l : Forall op_ok l -> good (run_ops l).
Proof.
  unfold run_ops. assert (G : good []) by (split; [constructor|exact I]). revert G. generalize (@nil (value * value)).
  induction l as [|o l IH]; intros m G F; [assumption|]. inversion F; subst. cbn. apply IH; [now apply apply_good|assumption].
Qed.
Lemma get_apply m o k : good m -> op_ok o -> wf_value k -> map_get k (map_apply m o) = spec_apply (fun k => map_get k m) o k.
Proof.
  intros G O K. destruct o; cbn in *; [now apply get_insert|now apply get_remove|now apply get_retain].
Qed.
Lemma run_get l k : Forall op_ok l -> wf_value k ->
  map_get k (run_ops l) = fold_left spec_apply l (fun _ => None) k.
Proof.
  intros F K. unfold run_ops.
  assert (H : forall m g, good m -> (forall k, wf_value k -> map_get k m = g k) ->
     map_get k (fold_left map_apply l m) = fold_left spec_apply l g k).
  { induction F as [|o l O F IH]; intros m g G E; [now apply E|]. cbn. apply IH; [now apply apply_good|].
    intros k2 K2. rewrite get_apply by assumption. destruct o; cbn; now rewrite ?E by assumption. }
  apply H; [split; [constructor|exact I]|reflexivity].
Qed.
Lemma sorted_nodup m : good m -> NoDup (map fst m).
Proof.
  intros [W S]. induction m as [|[a b] m IH]; [constructor|]. inversion W as [|? ? [Wa Wb] W']; subst. destruct S as [S1 S2].
  cbn. constructor; [|now apply IH]. intros I. apply in_map_iff in I as ([k v] & E & I). cbn in E. subst.
  apply S1 in I. cbn in Wa. now rewrite value_cmp_refl in I.
Qed.
(** two sorted maps with the same bindings are the same list *)
Lemma sorted_ext m n : good m -> good n -> (forall k, wf_value k -> map_get k m = map_get k n) -> m = n.
Proof.
  revert n. induction m as [|[a b] m IH]; intros [|[c d] n] GM GN H.
  - reflexivity.
  - destruct GN as [W _]. inversion W as [|? ? [Wc Wd] W']; subst. cbn in Wc. specialize (H c Wc). cbn in H.
    now rewrite value_cmp_refl in H.
  - destruct GM as [W _]. inversion W as [|? ? [Wc Wd] W']; subst. cbn in Wc. specialize (H a Wc). cbn in H.
    now rewrite value_cmp_refl in H.
  - destruct GM as [W1 [S1 S1']], GN as [W2 [S2 S2']].
    inversion W1 as [|? ? [Wa Wb] W1']; inversion W2 as [|? ? [Wc Wd] W2']; subst. cbn in Wa, Wb, Wc, Wd.
    assert (E : a = c).
    { assert (Ha := H a Wa). assert (Hc := H c Wc). cbn [map_get] in Ha, Hc. rewrite value_cmp_refl in Ha, Hc by assumption.
      destruct (value_cmp a c) eqn:C; [now apply value_cmp_eq in C|discriminate|].
      apply value_cmp_gt in C; auto. rewrite C in Hc. discriminate. }
    subst. assert (Hc := H c Wc). cbn in Hc. rewrite value_cmp_refl in Hc by assumption. injection Hc as ->.
    f_equal. apply IH; [split; assumption|split; assumption|].
    intros k K. specialize (H k K). cbn in H. destruct (value_cmp k c) eqn:C; [| |assumption].
    + apply value_cmp_eq in C; auto. subst. rewrite (get_below m c), (get_below n c); auto.
    + rewrite (get_below m k), (get_below n k); auto.
      * intros k' v' I. rewrite Forall_forall in W2'. destruct (W2' _ I). eapply value_cmp_trans; [..|exact C|exact (S2 _ _ I)]; assumption.
      * intros k' v' I. rewrite Forall_forall in W1'. destruct (W1' _ I). eapply value_cmp_trans; [..|exact C|exact (S1 _ _ I)]; assumption.
Qed.

(** ** Building maps: the last entry wins *)
Definition last_binding (k : value) (l : list (value * value)) : option value :=
  fold_left (fun o kv => if value_eqb k (fst kv) then Some (snd kv) else o) l None.
Lemma map_of_list_ops l : map_of_list l = run_ops (map (fun kv => Insert (fst kv) (snd kv)) l).
Proof.
  unfold map_of_list, run_ops. generalize (@nil (value * value)) as m. induction l as [|[k v] l IH]; intros m; [reflexivity|].
  cbn. apply IH.
Qed.
Lemma entries_ops l : Forall wf_entry l -> Forall op_ok (map (fun kv => Insert (fst kv) (snd kv)) l).
Proof. intros H. apply Forall_map. eapply Forall_impl; [|exact H]. intros [k v] [A B]. split; assumption. Qed.
Lemma map_of_list_good l : Forall wf_entry l -> good (map_of_list l).
Proof. intros W. rewrite map_of_list_ops. apply run_good. now apply entries_ops. Qed.
Lemma map_of_list_get l k : Forall wf_entry l -> wf_value k -> map_get k (map_of_list l) = last_binding k l.
Proof.
  intros W K. rewrite map_of_list_ops, run_get by (assumption || now apply entries_ops).
  unfold last_binding. assert (H : forall (g : value -> option value) o, g k = o ->
    fold_left spec_apply (map (fun kv => Insert (fst kv) (snd kv)) l) g k
    = fold_left (fun o kv => if value_eqb k (fst kv) then Some (snd kv) else o) l o).
  { clear W. induction l as [|[a b] l IH]; intros g o E; [exact E|]. cbn. apply IH. cbn. now rewrite E. }
  now apply H.
Qed.
Lemma map_of_list_id m : good m -> map_of_list m = m.
Proof.
  intros G. destruct (G) as [W S]. apply sorted_ext; [now apply map_of_list_good|assumption|].
  intros k K. rewrite map_of_list_get by assumption. unfold last_binding.
  assert (H : forall o, (o = None \/ map_get k m = None) ->
     fold_left (fun o kv => if value_eqb k (fst kv) then Some (snd kv) else o) m o = match map_get k m with Some v => Some v | None => o end).
  { clear G. induction m as [|[a b] m IH]; intros o H; [reflexivity|]. inversion W as [|? ? [Wa Wb] W']; subst. destruct S as [S1 S2].
    cbn in Wa, Wb. cbn [fold_left fst snd]. unfold value_eqb at 2. cbn [map_get] in H |- *. destruct (value_cmp k a) eqn:C.
    - apply value_cmp_eq in C; auto. subst. rewrite IH; auto; [|right; now apply get_below]. now rewrite (get_below m a).
    - rewrite IH; auto.
      + rewrite get_below; [reflexivity|]. intros k' v' I. rewrite Forall_forall in W'. destruct (W' _ I).
        eapply value_cmp_trans; [..|exact C|exact (S1 _ _ I)]; assumption.
      + right. apply get_below. intros k' v' I. rewrite Forall_forall in W'. destruct (W' _ I).
        eapply value_cmp_trans; [..|exact C|exact (S1 _ _ I)]; assumption.
    - apply IH; auto. }
  rewrite H by now left. now destruct (map_get k m).
Qed.

(** ** Collected for the theorems *)
Lemma num_hash_iff a b : wf_num a -> wf_num b -> num_cmp a b = Eq <-> num_hash a = num_hash b.
Proof.
  intros A B. rewrite (cmp_eq _ _ num_lawful) by assumption. split; [congruence|].
  destruct a, b; cbn; intros [= H]; congruence.
Qed.
Lemma num_cmp_int k x y : num_cmp (NInt k x) (NInt k y) = Z.compare x y.
Proof. now destruct k. Qed.

(** the number a finite float denotes, in units of the smallest subnormal *)
Definition finite (k : fk) (b : N) : Prop := f_abs k b < f_inf k.
Definition denotes (k : fk) (b : N) : Z :=
  let e := f_abs k b / 2 ^ f_mant k in
  let m := f_abs k b mod 2 ^ f_mant k in
  let a := Z.of_N (if e =? 0 then m else (2 ^ f_mant k + m) * 2 ^ (e - 1)) in
  if f_sign k b then (- a)%Z else a.

Lemma magnitude_lt p x y : p <> 0 -> x < y ->
  (if x / p =? 0 then x mod p else (p + x mod p) * 2 ^ (x / p - 1))
  < (if y / p =? 0 then y mod p else (p + y mod p) * 2 ^ (y / p - 1)).
Proof.
  intros P H. assert (M1 := N.mod_lt x p P). assert (M2 := N.mod_lt y p P).
  destruct (div_lt_or_eq x y p P H) as [L|[L R]].
  - set (e := x / p) in *. set (f := y / p) in *. clearbody e f.
    destruct (N.eqb_spec f 0); [lia|]. destruct (N.eqb_spec e 0).
    + assert (1 <= 2 ^ (f - 1)) by (change 1 with (2 ^ 0); apply N.pow_le_mono_r; lia). nia.
    + assert (A : 2 ^ (f - 1) = 2 ^ (e - 1) * (2 * 2 ^ (f - e - 1))).
      { rewrite <- N.pow_succ_r'. rewrite <- N.pow_add_r. f_equal. lia. }
      assert (1 <= 2 ^ (f - e - 1)) by (change 1 with (2 ^ 0); apply N.pow_le_mono_r; lia).
      assert (1 <= 2 ^ (e - 1)) by (change 1 with (2 ^ 0); apply N.pow_le_mono_r; lia).
      rewrite A. set (q := 2 ^ (e - 1)) in *. set (w := 2 ^ (f - e - 1)) in *. clearbody q w. 
      apply N.lt_le_trans with (2 * p * q); [nia|]. nia.
  - rewrite L. destruct (N.eqb_spec (y / p) 0); [assumption|].
    assert (1 <= 2 ^ (y / p - 1)) by (change 1 with (2 ^ 0); apply N.pow_le_mono_r; lia). nia.
Qed.
Lemma num_cmp_float k x y : x < 2 ^ f_bits k -> y < 2 ^ f_bits k -> finite k x -> finite k y ->
  num_cmp (NFloat k x) (NFloat k y)
  = match Z.compare (denotes k x) (denotes k y) with
    | Eq => bool_cmp (f_sign k y) (f_sign k x)
    | c => c
    end.
Proof.
  intros X Y _ _. assert (C : num_cmp (NFloat k x) (NFloat k y) = total_cmp k x y) by now destruct k. rewrite C. clear C.
  unfold total_cmp, total_key, denotes.
  assert (P : 2 ^ f_mant k <> 0) by now destruct k.
  set (p := 2 ^ f_mant k) in *. clearbody p.
  pose (g := fun a => if a / p =? 0 then a mod p else (p + a mod p) * 2 ^ (a / p - 1)).
  assert (ML : forall a b, a < b -> g a < g b) by (intros a b H; now apply magnitude_lt).
  change (if f_abs k x / p =? 0 then f_abs k x mod p else (p + f_abs k x mod p) * 2 ^ (f_abs k x / p - 1)) with (g (f_abs k x)).
  change (if f_abs k y / p =? 0 then f_abs k y mod p else (p + f_abs k y mod p) * 2 ^ (f_abs k y / p - 1)) with (g (f_abs k y)).
  assert (MX := ML (f_abs k x) (f_abs k y)). assert (MY := ML (f_abs k y) (f_abs k x)).
  assert (G0 : g 0 = 0) by (unfold g; now rewrite N.div_0_l, N.mod_0_l by assumption).
  assert (Z0 : forall a, 0 < a -> 0 < g a) by (intros a A; rewrite <- G0; auto).
  assert (ZX := Z0 (f_abs k x)). assert (ZY := Z0 (f_abs k y)).
  set (a := f_abs k x) in *. set (b := f_abs k y) in *.
  assert (EQ : a = b -> g a = g b) by congruence.
  assert (EA : a = 0 -> g a = 0) by (intros ->; exact G0). assert (EB : b = 0 -> g b = 0) by (intros ->; exact G0).
  destruct (f_sign k x), (f_sign k y); cbn [bool_cmp];
  match goal with |- Z.compare ?u ?v = match Z.compare ?w ?z with _ => _ end =>
    destruct (Z.compare_spec u v), (Z.compare_spec w z); try reflexivity; exfalso end;
  clearbody g; lia.
Qed.
Lemma num_cmp_nan k x y : x < 2 ^ f_bits k -> y < 2 ^ f_bits k ->
  f_is_nan k x = true -> f_is_nan k y = false ->
  num_cmp (NFloat k x) (NFloat k y) = if f_sign k x then Lt else Gt.
Proof.
  intros X Y NX NY. assert (C : num_cmp (NFloat k x) (NFloat k y) = total_cmp k x y) by now destruct k. rewrite C. clear C.
  unfold total_cmp, total_key, f_is_nan in *.
  destruct (f_sign k x), (f_sign k y); rewrite ?Z.compare_lt_iff, ?Z.compare_gt_iff; lia.
Qed.
Lemma value_eqb_eq a b : wf_value a -> wf_value b -> value_eqb a b = true <-> a = b.
Proof.
  intros A B. rewrite <- (cmp_eq _ _ value_lawful) by assumption. unfold value_eqb. destruct (value_cmp a b); split; congruence.
Qed.
Lemma value_eqb_hash a b : wf_value a -> wf_value b -> value_eqb a b = true -> value_hash a = value_hash b.
Proof. intros A B H. apply value_eqb_eq in H; auto. congruence. Qed.
Lemma run_insert_prev l k v : Forall op_ok l -> wf_value k ->
  fst (map_insert k v (run_ops l)) = fold_left spec_apply l (fun _ => None) k.
Proof. intros. now rewrite insert_prev, run_get. Qed.
Lemma run_remove_prev l k : Forall op_ok l -> wf_value k ->
  fst (map_remove k (run_ops l)) = fold_left spec_apply l (fun _ => None) k.
Proof. intros. now rewrite remove_prev, run_get. Qed.
Lemma run_ascending l a k1 v1 k2 v2 b : Forall op_ok l ->
  run_ops l = a ++ (k1, v1) :: (k2, v2) :: b -> value_cmp k1 k2 = Lt.
Proof.
  intros F E. destruct (run_good l F) as [_ S]. rewrite E in S. clear E. induction a as [|[c d] a IH].
  - destruct S as [S _]. apply (S k2 v2). now left.
  - destruct S as [_ S]. auto.
Qed.
Lemma run_nodup l : Forall op_ok l -> NoDup (map fst (run_ops l)).
Proof. intros F. apply sorted_nodup. now apply run_good. Qed.
Lemma run_in l k v : Forall op_ok l -> wf_value k ->
  In (k, v) (run_ops l) <-> fold_left spec_apply l (fun _ => None) k = Some v.
Proof. intros F K. rewrite <- sorted_get_in, run_get; auto. reflexivity. now apply run_good. Qed.
Lemma run_ext l l' : Forall op_ok l -> Forall op_ok l' ->
  (forall k, wf_value k -> fold_left spec_apply l (fun _ => None) k = fold_left spec_apply l' (fun _ => None) k) ->
  run_ops l = run_ops l'.
Proof.
  intros F F' H. apply sorted_ext; try (now apply run_good). intros k K. rewrite !run_get by assumption. auto.
Qed.
Lemma last_binding_iff k l v : wf_value k -> Forall wf_entry l ->
  last_binding k l = Some v <-> exists a b, l = a ++ (k, v) :: b /\ ~ In k (map fst b).
Proof.
  intros K W. unfold last_binding.
  assert (H : forall o, fold_left (fun o kv => if value_eqb k (fst kv) then Some (snd kv) else o) l o = Some v <->
     (exists a b, l = a ++ (k, v) :: b /\ ~ In k (map fst b)) \/ (o = Some v /\ ~ In k (map fst l))).
  { induction W as [|[c d] l [Wc Wd] W IH]; intros o.
    - cbn. split; [auto|]. intros [(a & b & E & _)|[-> _]]; [|reflexivity]. now destruct a.
    - cbn [fold_left fst snd] in *. rewrite IH. clear IH. cbn in Wc. destruct (value_eqb k c) eqn:C.
      + apply value_eqb_eq in C; auto. subst. split.
        * intros [(a & b & -> & N)|[[= ->] N]]; left; [exists ((c, d) :: a), b|exists [], l]; auto.
        * intros [(a & b & E & N)|[-> N]]; [|destruct N; now left]. destruct a as [|x a].
          -- injection E as -> ->. right. auto.
          -- injection E as <- ->. left. eauto.
      + assert (X : k <> c) by (intros ->; rewrite (proj2 (value_eqb_eq c c Wc Wc) eq_refl) in C; discriminate). split.
        * intros [(a & b & -> & N)|[-> N]]; [left; exists ((c, d) :: a), b; auto|right]. split; [reflexivity|].
          intros [J|J]; [cbn in J; congruence|auto].
        * intros [(a & b & E & N)|[-> N]]; [left|right; split; [reflexivity|]; intros J; apply N; now right].
          destruct a as [|x a]; [injection E as -> _ _; congruence|]. injection E as <- ->. eauto. }
  rewrite H. split; [|auto]. intros [?|[? _]]; [assumption|discriminate].
Qed.

Lemma norm_wf v : wf_value v -> wf_value (norm v).
Proof.
  remember (vsize v) as n. assert (L : (vsize v <= n)%nat) by lia. clear Heqn. revert v L.
  induction n as [|n IH]; intros v L W; [destruct v; cbn in L; lia|]. destruct v; cbn [norm]; auto.
  - apply wf_map. apply map_of_list_good. apply Forall_map. apply wf_map in W. rewrite Forall_forall in *.
    intros kv I. destruct (W kv I). apply vsize_map in I. split; cbn [fst snd]; apply IH; auto; lia.
  - apply IH; [cbn in L; lia|assumption].
  - apply wf_seq. apply Forall_map. apply wf_seq in W. rewrite Forall_forall in *. intros x I. specialize (W x I). apply vsize_seq in I.
    apply IH; auto; lia.
Qed.
Lemma norm_entries m : Forall wf_entry m -> Forall wf_entry (map (fun kv => (norm (fst kv), norm (snd kv))) m).
Proof. intros W. apply Forall_map. eapply Forall_impl; [|exact W]. intros [k v] [A B]. split; now apply norm_wf. Qed.
Lemma norm_map_get m k : Forall wf_entry m -> wf_value k ->
  exists n, norm (XMap m) = XMap n /\
    map_get k n = last_binding k (map (fun kv => (norm (fst kv), norm (snd kv))) m).
Proof. intros W K. eexists. split; [reflexivity|]. apply map_of_list_get; [|assumption]. now apply norm_entries. Qed.
