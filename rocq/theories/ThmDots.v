(** C57: ranges in the range syntax where no type is asked for, as by
    from_str::<Value>.  [range_lit] (VRepr.v) relates a range to its texts. *)
From Coq Require Import String Ascii NArith ZArith Lia Bool List.
From Coq Require Import ZifyBool ZifyNat ZifyN.
From Verif Require Import Base Facts Value Data Parse De Span Ser Wp EnvOk Layout Lit Attr LexSafe LexWs LexRead DocSafe DocRead SerLex Typing Repr ReprFacts TypedRead TypedMain VRepr AnyRead AnyMain ShowFacts SerNum SerOk ThmTyped ThmAny Toy.
Import ListNotations.
Open Scope N_scope.
Open Scope list_scope.
Open Scope m_scope.

Section Proofs.
Context {E : Env} {X : XidOk E} {FO : FloatOk E}.

Lemma range_start x t r : range_lit x t -> value_start (t ++ r).
Proof. intros H. eapply vrepr_start, v_range, H. Qed.
(** A document that is a range of numbers reads as the map of the range's
    fields, with every extension and limit, between any layout.  Missing, and
    false: an end after [..] that is [inf], [NaN] or a byte literal, and white
    space next to the dots. *)
Theorem C57_read_partial o x w0 at0 e t w1 : layout w0 -> attrs_text at0 e -> range_lit x t -> final_layout w1 ->
  options_from_str o any_value (w0 ++ at0 ++ t ++ w1) = RValue x.
Proof.
  intros L HA HR FL. eapply document_reads_final; [exact L|exact HA|now apply range_start with (1 := HR)|].
  intros T s J Hs He Hn Hl _. unfold any_value. eapply wp_bind_ok; [reflexivity|].
  replace (2 * length (rest s) + 3)%nat with (S (2 * length (rest s) + 2)) by lia.
  generalize (2 * length (rest s) + 2)%nat. intros f. cbn [de_any].
  eapply wp_bind_ok; [reflexivity|]. rewrite Hn.
  eapply wp_conseq; [apply (tr_any_range (exts_or e (o_exts o)) (de_any f) 0%nat t x HR T s w1); auto| |auto].
  - now apply final_delim.
  - destruct (lim s); cbn; [lia|exact Logic.I].
  - cbn beta. intros a s' (-> & R & J' & _). rewrite R. auto.
Qed.
(** Ranges may stand wherever a value may: [vrepr] (VRepr.v) relates values to
    their texts, with ranges among them. *)
Theorem C57_inside_partial o x w0 at0 e t w1 :
  layout w0 -> attrs_text at0 e -> x_unwrap_variant_newtypes (exts_or e (o_exts o)) = false ->
  vrepr x t -> final_layout w1 -> room (vneed x) (o_limit o) ->
  options_from_str o any_value (w0 ++ at0 ++ t ++ w1) = RValue x.
Proof. apply any_document. Qed.
End Proofs.

(** ** Examples *)
#[local] Existing Instance Toy.
#[local] Existing Instance toy_xid.
#[local] Existing Instance toy_float.
Definition reads_any (text : str) (x : value) : Prop := options_from_str opts_default any_value text = RValue x.
Definition n_u8 (z : Z) : value := XNum (NInt U8 z).
Example C57_ex :
  range_lit (XMap [(XStr s_start, n_u8 1); (XStr s_end, XNum (NInt I8 (-5)))]) (lit "1u8..-5i8") /\
  reads_any (lit " 1u8..-5i8 // a") (XMap [(XStr s_start, n_u8 1); (XStr s_end, XNum (NInt I8 (-5)))]) /\
  reads_any (lit "[1..=5,..5, ..=5,5..,..,inf..]") (XSeq [XMap [(XStr s_start, n_u8 1); (XStr s_end, n_u8 5)];
    XMap [(XStr s_end, n_u8 5)]; XMap [(XStr s_end, n_u8 5)]; XMap [(XStr s_start, n_u8 5)]; XUnit; XMap [(XStr s_start, XNum (NFloat F32 (f_inf F32)))]]).
Proof.
  split; [|split; vm_compute; reflexivity].
  apply (rl_range (NInt U8 1) (NInt I8 (-5)) (lit "1u8") (lit "-5i8")).
  - apply (n_int_suffix U8 (lit "1") 1); [reflexivity|exact (show_Z_lit 1)|reflexivity].
  - apply (n_int_suffix I8 (lit "-5") (-5)); [reflexivity|exact (show_Z_lit (-5))|reflexivity].
  - cbn. auto.
Qed.

(** What the typed reader accepts and the untyped one does not. *)
Definition refused {A} (r : result A) : Prop := exists er sp, r = RError er sp.
Theorem C57_word_end_refuted : exists text v,
  text = lit "1.0..inf" /\ options_from_str opts_default (de_ty no_refs 9 (TStruct true s_Range [(s_start, TFloat F64); (s_end, TFloat F64)])) text = RValue v /\
  refused (options_from_str opts_default any_value text).
Proof. exists (lit "1.0..inf"). eexists. split; [reflexivity|]. split; [vm_compute; reflexivity|]. eexists _, _. vm_compute. reflexivity. Qed.
Theorem C57_byte_end_refuted : exists text v,
  text = lit "..b'a'" /\ options_from_str opts_default (de_ty no_refs 9 (TStruct true s_RangeTo [(s_end, TInt U8)])) text = RValue v /\
  refused (options_from_str opts_default any_value text) /\ reads_any (lit "..=b'a'") (XMap [(XStr s_end, n_u8 97)]).
Proof. exists (lit "..b'a'"). eexists. split; [reflexivity|]. split; [vm_compute; reflexivity|]. split; [|vm_compute; reflexivity]. eexists _, _. vm_compute. reflexivity. Qed.
(** docs/grammar.md:147-153 has white space around the dots; neither reader takes
    it. *)
Theorem C57_spaces_refuted : forall text, In text [lit "1 .. 2"; lit "1.. 2"; lit "1 ..2"] ->
  refused (options_from_str opts_default any_value text) /\
  refused (options_from_str opts_default (de_ty no_refs 9 (TStruct true s_Range [(s_start, TInt U8); (s_end, TInt U8)])) text).
Proof. intros text IN. cbn [In] in IN. repeat (destruct IN as [<-|IN]; [split; eexists _, _; vm_compute; reflexivity|]). contradiction. Qed.
Print Assumptions C57_read_partial.
Print Assumptions C57_inside_partial.
Print Assumptions C57_word_end_refuted.
Print Assumptions C57_byte_end_refuted.
Print Assumptions C57_spaces_refuted.
