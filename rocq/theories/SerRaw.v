(** Raw values are written as they are: every raw value stands somewhere in
    what is written. *)
From Coq Require Import String Ascii NArith ZArith Lia Bool List.
From Coq Require Import ZifyBool ZifyNat ZifyN.
From Verif Require Import Base Facts Value Data Parse De Ser Repr Pieces SerRepr.
Import ListNotations.
Open Scope N_scope.
Open Scope list_scope.
Open Scope sm_scope.

Fixpoint raws (v : val) : list str :=
  match v with
  | VRaw r => [r]
  | VSome v | VNewtype _ v | VNewVariant _ _ v => raws v
  | VSeq l | VTuple l | VTupleStruct _ l | VTupVariant _ _ l => concat (map raws l)
  | VMap es => concat (map (fun kv => raws (fst kv) ++ raws (snd kv)) es)
  | VStruct _ fs | VStructVariant _ _ fs => concat (map (fun kv => raws (snd kv)) fs)
  | _ => []
  end.
Lemma each_raw_raws P : forall v, each_raw P v <-> Forall P (raws v).
Proof.
  assert (L : forall {A} (f : A -> list str) (g : A -> Prop) l, (forall a, In a l -> (g a <-> Forall P (f a))) ->
            all g l <-> Forall P (concat (map f l))).
  { intros A f g l. induction l as [|a l IH]; intros H; cbn; [split; auto|].
    rewrite Forall_app. fold (all g l). rewrite <- IH; [|intros; apply H; now right]. rewrite (H a); [tauto|now left]. }
  fix IH 1. intros v.
  destruct v as [b|k z|k b|c|s|b| |n| |v|n v|l|l|n l|es|n fs|n k|n k v|n k l|n k fs|r|]; cbn [each_raw raws];
    try (split; [constructor|auto]; fail); try apply IH.
  - apply L. induction l as [|a l H]; [intros ? []|]. intros x [<-|Q]; [apply IH|now apply H].
  - apply L. induction l as [|a l H]; [intros ? []|]. intros x [<-|Q]; [apply IH|now apply H].
  - apply L. induction l as [|a l H]; [intros ? []|]. intros x [<-|Q]; [apply IH|now apply H].
  - apply L. induction es as [|[a b] l H]; [intros ? []|]. intros x [<-|Q]; [|now apply H].
    cbn [fst snd]. rewrite Forall_app, (IH a), (IH b). tauto.
  - apply L. induction fs as [|[a b] l H]; [intros ? []|]. intros x [<-|Q]; [apply IH|now apply H].
  - apply L. induction l as [|a l H]; [intros ? []|]. intros x [<-|Q]; [apply IH|now apply H].
  - apply L. induction fs as [|[a b] l H]; [intros ? []|]. intros x [<-|Q]; [apply IH|now apply H].
  - split; [intros H; constructor; auto|]. intros H. now inversion H.
Qed.

Lemma piece_app_l a b r : piece a r -> piece (a ++ b) r.
Proof. intros (x & y & ->). exists x, (y ++ b). now rewrite <- !app_assoc. Qed.
Lemma piece_app_r a b r : piece b r -> piece (a ++ b) r.
Proof. intros (x & y & ->). exists (a ++ x), y. now rewrite <- !app_assoc. Qed.

(** what [m] writes contains the texts [l] *)
Definition puts {A} (l : list str) (m : SM A) : Prop := forall s a s', m s = SOk a s' ->
  exists t, w_out s' = w_out s ++ t /\ Forall (piece t) l.
Lemma puts_ret {A} (a : A) : puts [] (sret a).
Proof. intros s b s' H. injection H as <- <-. exists []. rewrite app_nil_r. auto. Qed.
Lemma puts_fail {A} l e : puts l (@sfail A e).
Proof. discriminate. Qed.
Lemma puts_bind {A B} l1 l2 (m : SM A) (k : A -> SM B) : puts l1 m -> (forall a, puts l2 (k a)) -> puts (l1 ++ l2) (sbind m k).
Proof.
  intros H K s b s' Q. unfold sbind in Q. destruct (m s) as [a s1| |] eqn:Q1; try discriminate.
  destruct (H _ _ _ Q1) as (t1 & H1 & F1). destruct (K _ _ _ _ Q) as (t2 & H2 & F2).
  exists (t1 ++ t2). rewrite H2, H1, <- app_assoc. split; [reflexivity|]. apply Forall_app. split.
  - eapply Forall_impl; [|exact F1]. intros r. apply piece_app_l.
  - eapply Forall_impl; [|exact F2]. intros r. apply piece_app_r.
Qed.
Lemma puts_then {A B} l (m : SM A) (k : A -> SM B) : puts [] m -> (forall a, puts l (k a)) -> puts l (sbind m k).
Proof. apply (puts_bind [] l). Qed.
Lemma puts_last {A B} l (m : SM A) (k : A -> SM B) : puts l m -> (forall a, puts [] (k a)) -> puts l (sbind m k).
Proof. intros H K. rewrite <- (app_nil_r l). now apply puts_bind. Qed.
Lemma puts_get : puts [] sget.
Proof. intros s a s' H. injection H as <- <-. exists []. rewrite app_nil_r. auto. Qed.
Lemma puts_mod f : (forall s, w_out (f s) = w_out s) -> puts [] (smod f).
Proof. intros F s a s' H. injection H as _ <-. exists []. rewrite app_nil_r, F. auto. Qed.
Lemma puts_write_piece t : puts [t] (write t).
Proof.
  intros s a s' H. exists t. split; [|constructor; [|constructor]; exists [], []; now rewrite app_nil_r].
  unfold write in H. destruct (w_cap s) as [c|]; [|now injection H as _ <-].
  destruct (Nat.leb _ _); [|discriminate]. now injection H as _ <-.
Qed.
Lemma puts_none {A} l (m : SM A) : puts l m -> puts [] m.
Proof. intros H s a s' Q. destruct (H _ _ _ Q) as (t & W & _). eauto. Qed.
Lemma puts_write t : puts [] (write t).
Proof. eapply puts_none, puts_write_piece. Qed.
Lemma puts_guard {A} l (m : SM A) : puts l m -> puts l (sguard m).
Proof.
  intros H s a s' Q. unfold sguard in Q. destruct (s_lim s) as [[|n]|]; [discriminate| |eauto].
  destruct (m (sset_lim (Some n) s)) as [b s1| |] eqn:Q1; try discriminate. injection Q as <- <-.
  destruct (H _ _ _ Q1) as (t & W & F). exists t. split; [exact W|exact F].
Qed.

#[local] Hint Resolve puts_ret puts_fail puts_get puts_write : puts.
Ltac pu1 :=
  match goal with
  | |- puts _ (sbind (smod _) _) => apply puts_then; [apply puts_mod; reflexivity|intros ?]
  | |- puts _ (smod _) => apply puts_mod; reflexivity
  | |- puts _ (sguard _) => apply puts_guard
  | |- puts [] (sbind _ _) => apply puts_then; [|intros ?]
  | |- puts _ _ => solve [auto with puts]
  | |- puts _ (sfail _) => apply puts_fail
  | |- puts _ (match ?x with _ => _ end) => destruct x
  | |- puts _ (let _ := _ in _) => cbv zeta
  | |- puts _ (sbind ?m _) => apply puts_then; [solve [repeat pu1]|intros ?]
  end.
Ltac pu := cbv zeta; repeat pu1.

Lemma puts_n n t : puts [] (swrite_n n t).
Proof. induction n as [|n IH]; cbn [swrite_n]; pu. Qed.
#[local] Hint Resolve puts_n : puts.

Section Ser.
Context {E : Env}.
Lemma puts_validate n : puts [] (validate_identifier n).
Proof. unfold validate_identifier. pu. Qed.
#[local] Hint Resolve puts_validate : puts.
Lemma puts_identifier n : puts [] (write_identifier n).
Proof. unfold write_identifier. pu. Qed.
#[local] Hint Resolve puts_identifier : puts.
Lemma puts_start cfg : puts [] (start_indent cfg).
Proof. unfold start_indent. pu. Qed.
Lemma puts_indent cfg : puts [] (indent cfg).
Proof. unfold indent. pu. Qed.
Lemma puts_end cfg : puts [] (end_indent cfg).
Proof. unfold end_indent. pu. discriminate. Qed.
#[local] Hint Resolve puts_start puts_indent puts_end : puts.
Lemma puts_open cfg w n : puts [] (open_wide cfg w n).
Proof. unfold open_wide. pu. Qed.
Lemma puts_close cfg w : puts [] (close_wide cfg w).
Proof. unfold close_wide. pu. Qed.
Lemma puts_separator cfg w : puts [] (separator cfg w).
Proof. unfold separator. pu. Qed.
Lemma puts_trailing cfg w b : puts [] (trailing cfg w b).
Proof. unfold trailing. pu. Qed.
Lemma puts_drop : puts [] drop_compound.
Proof. unfold drop_compound. pu. Qed.
#[local] Hint Resolve puts_open puts_close puts_separator puts_trailing puts_drop : puts.
Lemma puts_doc cfg : puts [] (doc_lines cfg).
Proof.
  unfold doc_lines. apply puts_then; [pu|intros s]. destruct (s_meta s) as [[d fs]|]; [|pu].
  induction (lines d []) as [|l ls IH]; [pu|]. do 4 (apply puts_then; [pu|intros ?]). exact IH.
Qed.
#[local] Hint Resolve puts_doc : puts.
Lemma puts_num cfg n : puts [] (ser_num cfg n).
Proof. destruct n; cbn; unfold ser_int, ser_float; pu. Qed.
#[local] Hint Resolve puts_num : puts.
Lemma puts_struct_field cfg f k m l : puts l m -> puts l (struct_field cfg f k m).
Proof.
  intros H. unfold struct_field. apply puts_then; [pu|intros s]. 
  destruct (match cfg with Some _ => meta_enter k (s_meta s) | None => (None, None) end) as [a b].
  do 6 (apply puts_then; [pu|intros ?]). apply puts_last; [now apply puts_guard|]. intros ?. pu.
Qed.
Lemma puts_seq_elem cfg c m l : puts l m -> puts l (seq_elem cfg c m).
Proof.
  intros H. destruct c as [f i]. unfold seq_elem. do 3 (apply puts_then; [pu|intros ?]).
  apply puts_last; [now apply puts_guard|]. intros ?. pu.
Qed.
Lemma puts_tuple_elem cfg c m l : puts l m -> puts l (tuple_elem cfg c m).
Proof.
  intros H. unfold tuple_elem. do 2 (apply puts_then; [pu|intros ?]).
  apply puts_last; [now apply puts_guard|]. intros ?. pu.
Qed.
Lemma puts_map_entry cfg c k m l1 l2 : puts l1 k -> puts l2 m -> puts (l1 ++ l2) (map_entry cfg c k m).
Proof.
  intros HK H. unfold map_entry. do 2 (apply puts_then; [pu|intros ?]).
  apply puts_bind; [now apply puts_guard|]. intros ?. do 2 (apply puts_then; [pu|intros ?]).
  apply puts_last; [now apply puts_guard|]. intros ?. pu.
Qed.
Lemma puts_replay cfg f x : puts [] (replay cfg f x).
Proof. destruct x as [[k n]|]; cbn [replay]; [|pu]. apply puts_struct_field. pu. Qed.
Lemma puts_range_field cfg rk c k v m l : puts l m -> (as_number v <> None -> l = []) -> puts l (range_field cfg rk c k v m).
Proof.
  intros H HV. unfold range_field. destruct c as [a b|f].
  - assert (F : puts l (write [c_lp] ;~
        (if compact_structs cfg then sret tt
         else smod (sset_is_empty (Some false)) ;~ start_indent cfg) ;~
        f <~ replay cfg true a ;;
        f <~ replay cfg f b ;;
        f <~ struct_field cfg f k m ;;
        sret (RFall f))).
    { apply puts_then; [pu|intros ?]. apply puts_then; [pu|intros ?]. apply puts_then; [apply puts_replay|intros ?].
      apply puts_then; [apply puts_replay|intros ?]. apply puts_last; [now apply puts_struct_field|intros ?]. pu. }
    cbv zeta. destruct (as_number v); [|exact F]. destruct (range_accepts _ _ _ _); [|exact F].
    rewrite HV by discriminate. pu.
  - apply puts_last; [now apply puts_struct_field|]. intros ?. pu.
Qed.
Lemma puts_range_close cfg rk c : puts [] (range_close cfg rk c).
Proof.
  destruct c as [a b|f]; cbn [range_close]; [|unfold struct_close; pu].
  assert (W : forall x, puts [] (write_buffered cfg x)) by (intros [[k n]|]; cbn; pu).
  apply puts_then; [|intros; pu]. destruct rk; pu; apply W.
Qed.

(** the loops over elements *)
Lemma puts_go {A C} (step : C -> A -> SM C) (f : A -> list str) (go : list A -> C -> SM C) :
  (forall c, go [] c = sret c) -> (forall a l c, go (a :: l) c = sbind (step c a) (go l)) ->
  forall l, (forall a, In a l -> forall c, puts (f a) (step c a)) -> forall c, puts (concat (map f l)) (go l c).
Proof.
  intros G0 G1. induction l as [|a l IH]; intros H c; cbn [map concat].
  - rewrite G0. apply puts_ret.
  - rewrite G1. apply puts_bind; [apply H; now left|]. intros c'. apply IH. intros x Q. apply H. now right.
Qed.
Variable o : opts.
Variable cfg : option pconf.
Theorem puts_ser : forall v, puts (raws v) (ser o cfg v).
Proof.
  intros v. induction v as [v F|v IH|n v IH|l IH|l IH|n l IH|l IH|n l IH|n k v IH|n k l IH|n k l IH] using val_ind'.
  - destruct v; try contradiction; cbn [ser raws]; try solve [
      unfold ser_int, ser_float, ser_char, ser_str, ser_bytes, ser_unit_struct, ser_unit_variant, ser_none, ser_unit;
      unfold escaped_str, unescaped_or_raw, escaped_byte_str; pu].
    unfold ser_raw. do 3 (apply puts_then; [pu|intros ?]). apply puts_last; [apply puts_guard, puts_write_piece|intros ?]. pu.
  - cbn [ser raws]. unfold ser_some. destruct (x_implicit_some _).
    + apply puts_then; [pu|intros ?]. apply puts_last; [now apply puts_guard|intros ?]. pu.
    + do 2 (apply puts_then; [pu|intros ?]). apply puts_last; [now apply puts_guard|intros ?]. pu.
  - cbn [ser raws]. unfold ser_newtype. apply puts_then; [pu|intros s]. destruct (_ || _).
    + do 2 (apply puts_then; [pu|intros ?]). now apply puts_guard.
    + do 3 (apply puts_then; [pu|intros ?]). apply puts_last; [now apply puts_guard|intros ?]. pu.
  - cbn [ser raws]. apply puts_then; [unfold seq_open; pu|intros ?]. apply puts_last; [|intros c; unfold seq_close; pu].
    apply (puts_go (fun c v => seq_elem cfg c (ser o cfg v)) raws); [reflexivity|reflexivity|].
    rewrite all_in in IH. intros x IN c. apply puts_seq_elem. auto.
  - cbn [ser raws]. apply puts_then; [unfold tuple_open; pu|intros ?]. apply puts_last; [|intros c; unfold tuple_close; pu].
    apply (puts_go (fun c v => tuple_elem cfg c (ser o cfg v)) raws); [reflexivity|reflexivity|].
    rewrite all_in in IH. intros x IN c. apply puts_tuple_elem. auto.
  - cbn [ser raws]. apply puts_then; [unfold tuple_struct_open, tuple_open; pu|intros ?]. apply puts_last; [|intros c; unfold tuple_close; pu].
    apply (puts_go (fun c v => tuple_elem cfg c (ser o cfg v)) raws); [reflexivity|reflexivity|].
    rewrite all_in in IH. intros x IN c. apply puts_tuple_elem. auto.
  - cbn [ser raws]. apply puts_then; [unfold map_open; pu|intros ?]. apply puts_last; [|intros c; unfold map_close; pu].
    apply (puts_go (fun c kv => map_entry cfg c (ser o cfg (fst kv)) (ser o cfg (snd kv))) (fun kv => raws (fst kv) ++ raws (snd kv))); [reflexivity|intros [? ?]; reflexivity|].
    rewrite all_in in IH. intros x IN c. destruct (IH x IN). now apply puts_map_entry.
  - cbn [ser raws]. destruct (range_kind_of cfg n (length l)) as [rk|].
    + apply puts_then; [pu|intros ?]. apply puts_last; [|intros c; apply puts_range_close].
      apply (puts_go (fun c kv => range_field cfg rk c (fst kv) (snd kv) (ser o cfg (snd kv))) (fun kv => raws (snd kv))); [reflexivity|intros [? ?]; reflexivity|].
      rewrite all_in in IH. intros x IN c. apply puts_range_field; [now apply IH|]. destruct (snd x); cbn; intros Q; try reflexivity; now destruct Q.
    + apply puts_then; [unfold struct_open; pu|intros ?]. apply puts_last; [|intros c; unfold struct_close; pu].
      apply (puts_go (fun c kv => struct_field cfg c (fst kv) (ser o cfg (snd kv))) (fun kv => raws (snd kv))); [reflexivity|intros [? ?]; reflexivity|].
      rewrite all_in in IH. intros x IN c. apply puts_struct_field. now apply IH.
  - cbn [ser raws]. unfold ser_newtype_variant. do 4 (apply puts_then; [pu|intros ?]). apply puts_last; [now apply puts_guard|intros ?]. pu.
  - cbn [ser raws]. apply puts_then; [unfold tuple_variant_open; pu|intros ?]. apply puts_last; [|intros c; unfold tuple_close; pu].
    apply (puts_go (fun c v => tuple_elem cfg c (ser o cfg v)) raws); [reflexivity|reflexivity|].
    rewrite all_in in IH. intros x IN c. apply puts_tuple_elem. auto.
  - cbn [ser raws]. apply puts_then; [unfold struct_variant_open; pu|intros ?]. apply puts_last; [|intros c; unfold struct_close; pu].
    apply (puts_go (fun c kv => struct_field cfg c (fst kv) (ser o cfg (snd kv))) (fun kv => raws (snd kv))); [reflexivity|intros [? ?]; reflexivity|].
    rewrite all_in in IH. intros x IN c. apply puts_struct_field. now apply IH.
Qed.
Lemma puts_headers p l : puts [] (write_headers p l).
Proof. induction l as [|a l IH]; cbn [write_headers]; pu. Qed.
Theorem written_raws v out : to_string o cfg v = inl out -> each_raw (piece out) v.
Proof.
  intros H. apply each_raw_raws. unfold to_string, to_writer, sbind in H.
  destruct (ser_new o cfg (ser_init o cfg None)) as [u s1| |]; try discriminate.
  destruct (ser o cfg v s1) as [u' s2| |] eqn:Q; try discriminate. injection H as <-.
  destruct (puts_ser _ _ _ _ Q) as (t & -> & F). eapply Forall_impl; [|exact F]. intros r. apply piece_app_r.
Qed.
End Ser.
