(** The recursion budget of the serializer: every nested value takes one
    while it is written, and every compound that closes adds one. *)
From Coq Require Import String Ascii NArith ZArith Lia Bool List.
From Verif Require Import Base Facts Value Data Parse De Ser Repr SerRepr.
Import ListNotations.
Open Scope list_scope.
Open Scope sm_scope.

(** ** Specification *)

(** the values directly inside a value, in the order they are written *)
Definition kids (v : val) : list val :=
  match v with
  | VSome v | VNewtype _ v | VNewVariant _ _ v => [v]
  | VSeq l | VTuple l | VTupleStruct _ l | VTupVariant _ _ l => l
  | VMap es => flat_map (fun kv => [fst kv; snd kv]) es
  | VStruct _ fs | VStructVariant _ _ fs => map snd fs
  | VRaw s => [VStr s]
  | _ => []
  end.
Definition compound (v : val) : bool :=
  match v with
  | VSeq _ | VTuple _ | VTupleStruct _ _ | VTupVariant _ _ _ | VMap _ | VStruct _ _ | VStructVariant _ _ _ => true
  | _ => false
  end.
(** [v] holds a value at depth [d], written when [c] compounds are closed *)
Inductive holds : val -> nat -> nat -> Prop :=
| holds_here v : holds v 0 0
| holds_in v pre w post d c n : kids v = pre ++ w :: post -> closes pre n -> holds w d c -> holds v (S d) (n + c)
(** writing the values closes [n] compounds *)
with closes : list val -> nat -> Prop :=
| closes_nil : closes [] 0
| closes_cons v l n m : closes (kids v) n -> closes l m -> closes (v :: l) ((if compound v then 1 else 0) + n + m).

(** how many values are inside one another below [v] *)
Fixpoint levels (v : val) : nat :=
  match v with
  | VSome v | VNewtype _ v | VNewVariant _ _ v => S (levels v)
  | VSeq l | VTuple l | VTupleStruct _ l | VTupVariant _ _ l => max_list (map (fun v => S (levels v)) l)
  | VMap es => max_list (map (fun kv => Nat.max (S (levels (fst kv))) (S (levels (snd kv)))) es)
  | VStruct _ fs | VStructVariant _ _ fs => max_list (map (fun kv => S (levels (snd kv))) fs)
  | VRaw _ => 1
  | _ => 0
  end.

(** ** Accounting *)
Definition use := nat -> option nat.
Definition u_id : use := Some.
Definition u_seq (u1 u2 : use) : use := fun l => match u1 l with Some l' => u2 l' | None => None end.
Definition u_guard (u : use) : use := fun l => match l with O => None | S l' => option_map S (u l') end.
Definition u_drop : use := fun l => Some (S l).
Fixpoint u_all (us : list use) : use := match us with [] => u_id | u :: us' => u_seq u (u_all us') end.
Fixpoint uses (v : val) : use :=
  match v with
  | VSome v | VNewtype _ v | VNewVariant _ _ v => u_guard (uses v)
  | VSeq l | VTuple l | VTupleStruct _ l | VTupVariant _ _ l => u_seq (u_all (map (fun v => u_guard (uses v)) l)) u_drop
  | VMap es => u_seq (u_all (map (fun kv => u_seq (u_guard (uses (fst kv))) (u_guard (uses (snd kv)))) es)) u_drop
  | VStruct _ fs | VStructVariant _ _ fs => u_seq (u_all (map (fun kv => u_guard (uses (snd kv))) fs)) u_drop
  | VRaw s => u_guard u_id
  | _ => u_id
  end.

(** the budget of [m] is [u] *)
Definition bud {A} (m : SM A) (u : use) : Prop := forall s l, s_lim s = Some l ->
  match m s with
  | SOk _ s' => exists l', u l = Some l' /\ s_lim s' = Some l'
  | SErr e _ => e = EExceededRecursionLimit -> u l = None
  | SPanic => True
  end.
Lemma bud_ret {A} (a : A) : bud (sret a) u_id.
Proof. intros s l L. cbn. eauto. Qed.
Lemma bud_fail {A} e u : e <> EExceededRecursionLimit -> bud (@sfail A e) u.
Proof. intros N s l L. cbn. congruence. Qed.
Lemma bud_panic {A} u : bud (fun _ => @SPanic A) u.
Proof. intros s l L. exact Logic.I. Qed.
Lemma bud_write t : bud (write t) u_id.
Proof. intros s l L. unfold write. destruct (w_cap s); [destruct (_ <=? _)%nat|]; cbn; eauto. discriminate. Qed.
Lemma bud_mod f : (forall s, s_lim (f s) = s_lim s) -> bud (smod f) u_id.
Proof. intros H s l L. cbn. rewrite H. eauto. Qed.
Lemma bud_bind {A B} (m : SM A) (k : A -> SM B) u1 u2 : bud m u1 -> (forall a, bud (k a) u2) -> bud (sbind m k) (u_seq u1 u2).
Proof.
  intros H HK s l L. unfold sbind, u_seq. specialize (H s l L). destruct (m s) as [a s'|e s'|]; auto.
  - destruct H as (l' & -> & L'). apply (HK a s' l' L').
  - intros ->. now rewrite H.
Qed.
Lemma bud_get {B} (k : sst -> SM B) u : (forall s, bud (k s) u) -> bud (sbind sget k) u.
Proof. intros H s l L. unfold sbind, sget. now apply H. Qed.
(** steps that leave the budget alone *)
Lemma bud_skip {A B} (m : SM A) (k : A -> SM B) u : bud m u_id -> (forall a, bud (k a) u) -> bud (sbind m k) u.
Proof. intros H HK. apply (bud_bind m k u_id u H HK). Qed.
(** and steps followed only by such *)
Lemma bud_then {A B} (m : SM A) (k : A -> SM B) u : bud m u -> (forall a, bud (k a) u_id) -> bud (sbind m k) u.
Proof.
  intros H HK s l L. assert (R := bud_bind m k u u_id H HK s l L). unfold u_seq, u_id in R. destruct (sbind m k s); auto; destruct (u l); auto.
Qed.
Lemma bud_guard {A} (m : SM A) u : bud m u -> bud (sguard m) (u_guard u).
Proof.
  intros H s l L. unfold sguard. rewrite L. destruct l as [|l]; [now cbn|]. specialize (H (sset_lim (Some l) s) l eq_refl).
  cbn [u_guard]. destruct (m (sset_lim (Some l) s)) as [a s'|e s'|]; auto.
  - destruct H as (l' & -> & L'). cbn. rewrite L'. eauto.
  - intros ->. now rewrite H.
Qed.
Lemma bud_if {A} (b : bool) (m k : SM A) u : bud m u -> bud k u -> bud (if b then m else k) u.
Proof. now destruct b. Qed.
Lemma bud_n n t : bud (swrite_n n t) u_id.
Proof. induction n as [|n IH]; cbn [swrite_n]; [apply bud_ret|]. apply bud_skip; [apply bud_write|intros; exact IH]. Qed.
Lemma bud_drop : bud drop_compound u_drop.
Proof. intros s l L. cbn. rewrite L. unfold u_drop. cbn. eauto. Qed.
Ltac bud_step := lazymatch goal with
  | |- bud (sret _) u_id => apply bud_ret
  | |- bud (sfail _) _ => apply bud_fail; discriminate
  | |- bud (fun _ => SPanic) _ => apply bud_panic
  | |- bud (write _) u_id => apply bud_write
  | |- bud (swrite_n _ _) u_id => apply bud_n
  | |- bud (smod _) u_id => apply bud_mod; reflexivity
  | |- bud (if _ then _ else _) _ => apply bud_if
  | |- bud (sbind sget _) _ => apply bud_get; intros ?
  | |- bud (sbind (sguard _) _) (u_guard _) => apply bud_then; [apply bud_guard|intros ?]
  | |- bud (sguard _) (u_guard _) => apply bud_guard
  | |- bud (sbind _ _) _ => apply bud_skip; [|intros ?]
  | |- bud (match ?x with _ => _ end) _ => destruct x
  end.
Ltac bud0 := repeat bud_step; try assumption.

Section WithEnv.
Context {E : Env}.
Variable o : opts.
Variable cfg : option pconf.
Hypothesis NR : compact_ranges cfg = false.
Lemma bud_start : bud (start_indent cfg) u_id.
Proof. unfold start_indent. bud0. Qed.
Lemma bud_indent : bud (indent cfg) u_id.
Proof. unfold indent. bud0. Qed.
Lemma bud_end : bud (end_indent cfg) u_id.
Proof. unfold end_indent. bud0. Qed.
Lemma bud_open w len : bud (open_wide cfg w len) u_id.
Proof. unfold open_wide. bud0. apply bud_start. Qed.
Lemma bud_close w : bud (close_wide cfg w) u_id.
Proof. unfold close_wide. bud0. apply bud_end. Qed.
Lemma bud_separator w : bud (separator cfg w) u_id.
Proof. unfold separator. bud0. Qed.
Lemma bud_trailing w f : bud (trailing cfg w f) u_id.
Proof. unfold trailing. bud0. Qed.
Lemma bud_validate n : bud (validate_identifier n) u_id.
Proof. unfold validate_identifier. bud0. Qed.
Lemma bud_ident n : bud (write_identifier n) u_id.
Proof. unfold write_identifier, validate_identifier. bud0. Qed.
Lemma bud_int k z : bud (ser_int cfg k z) u_id.
Proof. unfold ser_int. bud0. Qed.
Lemma bud_float k b : bud (ser_float cfg k b) u_id.
Proof. unfold ser_float. bud0. Qed.
Lemma bud_raw_str p v : bud (unescaped_or_raw p v) u_id.
Proof. unfold unescaped_or_raw. bud0. Qed.
Lemma bud_str v : bud (ser_str cfg v) u_id.
Proof. unfold ser_str, escaped_str. bud0. apply bud_raw_str. Qed.
Lemma bud_bytes v : bud (ser_bytes cfg v) u_id.
Proof. unfold ser_bytes, escaped_byte_str. bud0. apply bud_raw_str. Qed.
Lemma bud_unit : bud ser_unit u_id.
Proof. unfold ser_unit. bud0. Qed.
Lemma bud_doc : bud (doc_lines cfg) u_id.
Proof.
  unfold doc_lines. apply bud_get. intros s. destruct (s_meta s) as [[d fs]|]; [|bud0].
  match goal with |- bud (_ ?x) _ => generalize x end. intros ls. induction ls as [|l ls IH]; bud0. apply bud_indent.
Qed.
#[local] Hint Resolve bud_indent bud_open bud_close bud_separator bud_trailing bud_validate bud_ident bud_int bud_float
  bud_raw_str bud_str bud_bytes bud_unit bud_drop bud_doc : bud.
Ltac buds := bud0; try (solve [auto with bud]).
Lemma bud_field f k m u : bud m u -> bud (struct_field cfg f k m) (u_guard u).
Proof.
  intros H. unfold struct_field. apply bud_get. intros s. destruct (match cfg with Some _ => _ | None => _ end) as [X Y].
  assert (SI := bud_indent). assert (SD := bud_doc). assert (SW := bud_separator wide_struct). assert (SN := bud_ident k).
  apply bud_skip; [buds|intros _]. apply bud_skip; [buds|intros _].
  apply bud_skip; [apply bud_if; [buds|destruct cfg; buds]|intros _].
  apply bud_skip; [buds|intros _]. apply bud_skip; [buds|intros _].
  apply bud_skip; [destruct cfg; buds|intros _]. buds.
Qed.
Lemma bud_elems {C X} (g : X -> C -> SM C) (u : X -> use) (l : list X) : all (fun x => forall c, bud (g x c) (u x)) l -> forall c,
  bud ((fix go (l : list X) (c : C) : SM C := match l with [] => sret c | x :: l' => c' <~ g x c ;; go l' c' end) l c) (u_all (map u l)).
Proof.
  induction l as [|x l IH]; intros H c; cbn [map u_all]; [apply bud_ret|]. destruct H as [H1 H2]. apply bud_bind; [apply H1|]. intros c'. now apply IH.
Qed.
Lemma all_imp {X} (P Q : X -> Prop) l : (forall x, P x -> Q x) -> all P l -> all Q l.
Proof. intros H. induction l; cbn; intuition. Qed.
Lemma bud_pairs (l : list (str * val)) : all (fun kv => bud (ser o cfg (snd kv)) (uses (snd kv))) l -> forall c, bud
  ((fix go (vs : list (str * val)) (c : bool) : SM bool :=
     match vs with [] => sret c | (k, v) :: vs' => c' <~ struct_field cfg c k (ser o cfg v) ;; go vs' c' end) l c)
  (u_all (map (fun kv => u_guard (uses (snd kv))) l)).
Proof.
  induction l as [|[k v] l IH]; intros H c; cbn [map u_all]; [apply bud_ret|]. destruct H as [H1 H2]. apply bud_bind; [now apply bud_field|]. intros c'. now apply IH.
Qed.
Lemma bud_struct_close n f : bud (struct_close cfg n f) u_drop.
Proof. unfold struct_close. buds. Qed.
Lemma bud_tuple_close n f : bud (tuple_close cfg n f) u_drop.
Proof. unfold tuple_close. buds. Qed.
Theorem bud_ser v : bud (ser o cfg v) (uses v).
Proof.
  induction v as [v F|v IH|n v IH|l IH|l IH|n l IH|l IH|n l IH|n k v IH|n k l IH|n k l IH] using val_ind'.
  - destruct v; try contradiction; cbn [ser uses]; buds.
    + unfold ser_char. buds.
    + unfold ser_unit_struct. buds.
    + unfold ser_none. buds.
    + unfold ser_unit_variant. buds.
    + unfold ser_raw. buds.
  - cbn [ser uses]. unfold ser_some. buds.
  - cbn [ser uses]. unfold ser_newtype. buds.
  - cbn [ser uses]. apply bud_skip; [unfold seq_open; buds|intros _]. apply bud_bind; [|intros c; unfold seq_close; buds].
    apply (bud_elems (fun v c => seq_elem cfg c (ser o cfg v)) (fun v => u_guard (uses v))). revert IH. apply all_imp. intros x H [f idx].
    unfold seq_elem. buds.
  - cbn [ser uses]. apply bud_skip; [unfold tuple_open; buds|intros n]. apply bud_bind; [|intros c; apply bud_tuple_close].
    apply (bud_elems (fun v c => tuple_elem cfg c (ser o cfg v)) (fun v => u_guard (uses v))). revert IH. apply all_imp. intros x H f.
    unfold tuple_elem. buds.
  - cbn [ser uses]. apply bud_skip; [unfold tuple_struct_open, tuple_open; buds|intros m]. apply bud_bind; [|intros c; apply bud_tuple_close].
    apply (bud_elems (fun v c => tuple_elem cfg c (ser o cfg v)) (fun v => u_guard (uses v))). revert IH. apply all_imp. intros x H f.
    unfold tuple_elem. buds.
  - cbn [ser uses]. apply bud_skip; [unfold map_open; buds|intros _]. apply bud_bind; [|intros c; unfold map_close; buds].
    generalize true. induction l as [|[k v] l IHl]; intros c; cbn [map u_all]; [apply bud_ret|].
    destruct IH as [[I1 I1'] I2]. apply bud_bind; [|intros c'; apply IHl; auto]. unfold map_entry. cbn [fst snd] in *.
    apply bud_skip; [buds|intros _]. apply bud_skip; [buds|intros _]. apply bud_bind; [now apply bud_guard|intros _]. buds.
  - cbn [ser uses]. replace (range_kind_of cfg n (length l)) with (@None range_kind) by (unfold range_kind_of; now rewrite NR).
    apply bud_skip; [unfold struct_open; buds|intros m]. apply bud_bind; [now apply bud_pairs|intros c; apply bud_struct_close].
  - cbn [ser uses]. unfold ser_newtype_variant. buds.
  - cbn [ser uses]. apply bud_skip; [unfold tuple_variant_open; buds|intros m]. apply bud_bind; [|intros c; apply bud_tuple_close].
    apply (bud_elems (fun v c => tuple_elem cfg c (ser o cfg v)) (fun v => u_guard (uses v))). revert IH. apply all_imp. intros x H f.
    unfold tuple_elem. buds.
  - cbn [ser uses]. apply bud_skip; [unfold struct_variant_open; buds|intros m]. apply bud_bind; [now apply bud_pairs|intros c; apply bud_struct_close].
Qed.
Lemma bud_headers p ns : bud (write_headers p ns) u_id.
Proof. induction ns as [|n ns IH]; cbn [write_headers]; buds. Qed.
Lemma bud_new : bud (ser_new o cfg) u_id.
Proof. unfold ser_new. buds. apply bud_headers. Qed.
End WithEnv.

(** ** The accounting in terms of the specification *)

(** a value as its kids *)
Definition u_kids (l : list val) : use := u_all (map (fun v => u_guard (uses v)) l).
Lemma u_kids_app a b l : u_kids (a ++ b) l = u_seq (u_kids a) (u_kids b) l.
Proof.
  revert l. induction a as [|v a IH]; intros l; [reflexivity|]. cbn. unfold u_seq. destruct (u_guard (uses v) l); [|reflexivity]. apply IH.
Qed.
Lemma u_all_entries es l : u_all (map (fun kv : val * val => u_seq (u_guard (uses (fst kv))) (u_guard (uses (snd kv)))) es) l
  = u_kids (flat_map (fun kv => [fst kv; snd kv]) es) l.
Proof.
  revert l. induction es as [|kv es IH]; intros l; [reflexivity|]. cbn. unfold u_seq. destruct (u_guard (uses (fst kv)) l); [|reflexivity].
  destruct (u_guard (uses (snd kv)) n); [|reflexivity]. apply IH.
Qed.
Lemma uses_kids v l : uses v l = u_seq (u_kids (kids v)) (if compound v then u_drop else u_id) l.
Proof.
  assert (R : forall u : use, u_seq (u_seq u u_id) u_id l = u l) by (intros u; unfold u_seq, u_id; now destruct (u l)).
  destruct v; try reflexivity; cbn [uses kids compound]; unfold u_kids; cbn [map u_all]; rewrite ?R; try reflexivity.
  - unfold u_seq. now rewrite u_all_entries.
  - now rewrite map_map.
  - now rewrite map_map.
Qed.
(** the number of compounds in a value *)
Fixpoint vsize (v : val) : nat :=
  S (match v with
     | VSome v | VNewtype _ v | VNewVariant _ _ v => vsize v
     | VSeq l | VTuple l | VTupleStruct _ l | VTupVariant _ _ l => list_sum (map vsize l)
     | VMap es => list_sum (map (fun kv => vsize (fst kv) + vsize (snd kv)) es)
     | VStruct _ fs | VStructVariant _ _ fs => list_sum (map (fun kv => vsize (snd kv)) fs)
     | VRaw _ => 1
     | _ => 0
     end)%nat.
Lemma kids_smaller v : (list_sum (map vsize (kids v)) < vsize v)%nat.
Proof.
  unfold list_sum; destruct v; cbn [kids vsize map fold_right]; unfold list_sum; try lia.
  - match goal with |- context [flat_map _ ?es] =>
      enough (EQ : fold_right Nat.add 0%nat (map vsize (flat_map (fun kv => [fst kv; snd kv]) es)) = fold_right Nat.add 0%nat (map (fun kv => vsize (fst kv) + vsize (snd kv))%nat es)) by lia;
      induction es as [|kv es IH]; [reflexivity|]; unfold list_sum in *; cbn; rewrite IH; lia end.
  - rewrite map_map. lia.
  - rewrite map_map. lia.
Qed.
(** success adds the compounds that closed; failure is a value too deep *)
Lemma kids_spec n : forall vs, (list_sum (map vsize vs) <= n)%nat -> forall l,
  match u_kids vs l with
  | Some l' => exists k, closes vs k /\ l' = (l + k)%nat /\
      forall pre w post d c m, vs = pre ++ w :: post -> closes pre m -> holds w d c -> (S d <= l + m + c)%nat
  | None => exists pre w post d c m, vs = pre ++ w :: post /\ closes pre m /\ holds w d c /\ (l + m + c < S d)%nat
  end.
Proof.
  induction n as [n IHn] using lt_wf_ind. intros vs. induction vs as [|v vs IHvs]; intros LE l.
  - cbn. exists 0%nat. split; [constructor|]. split; [lia|]. intros pre w post d c m EQ. destruct pre; discriminate.
  - cbn [u_kids map u_all]. change (u_all (map (fun v => u_guard (uses v)) vs)) with (u_kids vs). unfold u_seq.
    assert (SM : (vsize v + list_sum (map vsize vs) <= n)%nat) by exact LE.
    assert (KS := kids_smaller v).
    assert (HV := IHn (list_sum (map vsize (kids v))) ltac:(lia) (kids v) (le_n _)).
    (* the closings before a position are determined *)
    assert (DET : forall pre a b, closes pre a -> closes pre b -> a = b).
    { clear. intros pre a b HA. revert b. induction HA as [|v l n m _ IH1 _ IH2]; intros b HB; inversion HB; subst; [reflexivity|]. erewrite IH1, IH2 by eassumption. reflexivity. }
    destruct l as [|l]; cbn [u_guard option_map].
    { exists [], v, vs, 0%nat, 0%nat, 0%nat. repeat split; try constructor; lia. }
    rewrite uses_kids. unfold u_seq. specialize (HV l). destruct (u_kids (kids v) l) as [l1|] eqn:U1.
    + destruct HV as (k & CK & -> & HV).
      assert (EQ : option_map S ((if compound v then u_drop else u_id) (l + k)%nat) = Some (S l + ((if compound v then 1 else 0) + k))%nat).
      { destruct (compound v); cbn; f_equal; lia. }
      rewrite EQ. specialize (IHvs ltac:(lia) (S l + ((if compound v then 1 else 0) + k))%nat).
      destruct (u_kids vs _) as [l3|].
      * destruct IHvs as (k2 & CK2 & -> & HVS). exists ((if compound v then 1 else 0) + k + k2)%nat. split; [now constructor|]. split; [lia|].
        intros pre w post d c m EQ1 CP HW. destruct pre as [|v0 pre]; cbn in EQ1; injection EQ1 as EQ1 EQ2; subst.
        -- inversion CP; subst. inversion HW; subst; [lia|]. match goal with H : kids w = _ |- _ => specialize (HV _ _ _ _ _ _ H ltac:(eassumption) ltac:(eassumption)) end. lia.
        -- inversion CP; subst. match goal with H : closes (kids v0) ?x |- _ => rewrite (DET _ _ _ H CK) in * end.
           match goal with H : closes pre _ |- _ => specialize (HVS _ _ _ _ _ _ eq_refl H HW) end. lia.
      * destruct IHvs as (pre & w & post & d & c & m & -> & CP & HW & LT). exists (v :: pre), w, post, d, c, ((if compound v then 1 else 0) + k + m)%nat.
        split; [reflexivity|]. split; [now constructor|]. split; [exact HW|lia].
    + destruct HV as (pre & w & post & d & c & m & EK & CP & HW & LT). exists [], v, vs, (S d), (m + c)%nat, 0%nat.
      split; [reflexivity|]. split; [constructor|]. split; [econstructor; eassumption|lia].
Qed.
Theorem uses_spec v l :
  match uses v l with
  | Some _ => forall d c, holds v d c -> (d <= l + c)%nat
  | None => exists d c, holds v d c /\ (l + c < d)%nat
  end.
Proof.
  rewrite uses_kids. unfold u_seq. assert (K := kids_spec _ (kids v) (le_n _) l). destruct (u_kids (kids v) l) as [l'|].
  - destruct K as (k & CK & -> & K). destruct (compound v); cbn; intros d c HW; (inversion HW; subst; [lia|]);
      match goal with H : kids v = _ |- _ => specialize (K _ _ _ _ _ _ H ltac:(eassumption) ltac:(eassumption)) end; lia.
  - destruct K as (pre & w & post & d & c & m & EK & CP & HW & LT). exists (S d), (m + c)%nat. split; [econstructor; eassumption|lia].
Qed.

(** ** Levels *)
Lemma levels_kids v : levels v = max_list (map (fun v => S (levels v)) (kids v)).
Proof.
  destruct v; cbn [levels kids map]; try (cbn [max_list]; lia).
  - match goal with |- context [flat_map _ ?es] => induction es as [|kv es IH]; [reflexivity|]; cbn [map flat_map app max_list]; lia end.
  - now rewrite map_map.
  - now rewrite map_map.
Qed.
Lemma max_in (l : list nat) n : In n l -> (n <= max_list l)%nat.
Proof. induction l as [|a l IH]; [intros []|]. cbn [max_list In]. intros [<-|H]; [lia|]. specialize (IH H). lia. Qed.
Lemma max_attained (l : list nat) : (max_list l = 0 \/ In (max_list l) l)%nat.
Proof.
  induction l as [|a l IH]; [now left|]. cbn [max_list In]. destruct (Nat.max_spec a (max_list l)) as [[_ ->]|[_ ->]]; [|now right; left].
  destruct IH as [->|IH]; [now left|right; now right].
Qed.
Lemma holds_levels v d c : holds v d c -> (d <= levels v)%nat.
Proof.
  induction 1 as [v|v pre w post d c n EK CP _ IH]; [lia|]. rewrite levels_kids.
  apply Nat.le_trans with (S (levels w)); [lia|]. apply max_in. rewrite EK, map_app. apply in_or_app. right. now left.
Qed.
Lemma closes_total n : forall l, (list_sum (map vsize l) <= n)%nat -> exists k, closes l k.
Proof.
  induction n as [n IHn] using lt_wf_ind. induction l as [|v l IH]; intros LE; [exists 0%nat; constructor|]. assert (K := kids_smaller v).
  assert (SM : (vsize v + list_sum (map vsize l) <= n)%nat) by exact LE.
  destruct IH as (k & HK); [lia|]. destruct (IHn (list_sum (map vsize (kids v))) ltac:(lia) (kids v) (le_n _)) as (j & HJ).
  eexists. econstructor; eassumption.
Qed.
Lemma levels_holds : forall v, exists c, holds v (levels v) c.
Proof.
  assert (G : forall n v, (vsize v <= n)%nat -> exists c, holds v (levels v) c).
  { induction n as [|n IHn]; intros v LE; [destruct v; cbn in LE; lia|]. rewrite levels_kids.
    destruct (max_attained (map (fun v => S (levels v)) (kids v))) as [EQ|IN]; [rewrite EQ; exists 0%nat; constructor|].
    apply in_map_iff in IN as (w & EQ & IN). rewrite <- EQ. apply in_split in IN as (pre & post & EK). assert (K := kids_smaller v). rewrite EK in K.
    unfold list_sum in K. rewrite map_app, fold_right_app in K. cbn in K.
    destruct (closes_total _ pre (le_n _)) as (k & HK). destruct (IHn w) as (c & HW).
    { assert (PL : forall l a, (a <= fold_right Nat.add a l)%nat) by (clear; induction l as [|x l IH]; intros a; cbn; [lia|specialize (IH a); lia]).
      specialize (PL (map vsize pre) (vsize w + fold_right Nat.add 0 (map vsize post))%nat). lia. }
    exists (k + c)%nat. econstructor; eassumption. }
  intros v. eapply G, le_n.
Qed.
Lemma need_levels : forall v, (need v <= 3 * levels v + 3)%nat.
Proof.
  assert (ML : forall X (f g : X -> nat) l, all (fun x => f x <= 3 * g x)%nat l -> (max_list (map f l) <= 3 * max_list (map g l))%nat).
  { intros X f g l. induction l as [|x l IH]; cbn [map max_list]; [lia|]. intros [H1 H2]. specialize (IH H2). lia. }
  intros v. induction v as [v F|v IH|n v IH|l IH|l IH|n l IH|l IH|n l IH|n k v IH|n k l IH|n k l IH] using val_ind'.
  - destruct v; try contradiction; cbn; lia.
  - cbn [need levels]. lia.
  - cbn [need levels]. lia.
  - cbn [need levels]. assert (H := ML _ need (fun v => S (levels v)) l). cbv beta in H. enough (all (fun x => need x <= 3 * S (levels x))%nat l) by (specialize (H H0); lia). revert IH. apply all_imp. intros; lia.
  - cbn [need levels]. assert (H := ML _ need (fun v => S (levels v)) l). cbv beta in H. enough (all (fun x => need x <= 3 * S (levels x))%nat l) by (specialize (H H0); lia). revert IH. apply all_imp. intros; lia.
  - cbn [need levels]. assert (H := ML _ need (fun v => S (levels v)) l). cbv beta in H. enough (all (fun x => need x <= 3 * S (levels x))%nat l) by (specialize (H H0); lia). revert IH. apply all_imp. intros; lia.
  - cbn [need levels]. assert (H := ML _ (fun kv => Nat.max (need (fst kv)) (need (snd kv))) (fun kv => Nat.max (S (levels (fst kv))) (S (levels (snd kv)))) l). cbv beta in H.
    enough (H0 : all (fun x => Nat.max (need (fst x)) (need (snd x)) <= 3 * Nat.max (S (levels (fst x))) (S (levels (snd x))))%nat l) by (specialize (H H0); lia). revert IH. apply all_imp. intros x []. lia.
  - cbn [need levels]. assert (H := ML _ (fun kv => need (snd kv)) (fun kv : str * val => S (levels (snd kv))) l). cbv beta in H. enough (H0 : all (fun x => need (snd x) <= 3 * S (levels (snd x)))%nat l) by (specialize (H H0); lia). revert IH. apply all_imp. intros; lia.
  - cbn [need levels]. lia.
  - cbn [need levels]. assert (H := ML _ need (fun v => S (levels v)) l). cbv beta in H. enough (all (fun x => need x <= 3 * S (levels x))%nat l) by (specialize (H H0); lia). revert IH. apply all_imp. intros; lia.
  - cbn [need levels]. assert (H := ML _ (fun kv => need (snd kv)) (fun kv : str * val => S (levels (snd kv))) l). cbv beta in H. enough (H0 : all (fun x => need (snd x) <= 3 * S (levels (snd x)))%nat l) by (specialize (H H0); lia). revert IH. apply all_imp. intros; lia.
Qed.
