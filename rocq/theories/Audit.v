(** The theorems of MANIFEST.json whose assumptions are not printed beside them *)
From Verif Require B64Facts DocSound ThmAccept ThmRange ThmSer ThmThrough ThmTyped.
Print Assumptions ThmTyped.C11_tuple_struct_gap_refuted.
Print Assumptions ThmTyped.C11_unit_gap_refuted.
Print Assumptions ThmSer.C20_limit_refuted.
Print Assumptions ThmSer.C20_unbounded_refuted.
Print Assumptions B64Facts.base64_decoder.
Print Assumptions ThmThrough.C34_empty_struct_refuted.
Print Assumptions ThmThrough.C34_all_optional_refuted.
Print Assumptions ThmThrough.C34_empty_array_refuted.
Print Assumptions ThmThrough.C34_implicit_some_refuted.
Print Assumptions ThmThrough.C34_unwrap_newtypes_refuted.
Print Assumptions ThmThrough.C34_large_float_refuted.
Print Assumptions ThmThrough.C34_range_end_refuted.
Print Assumptions ThmThrough.C34_laxer.
Print Assumptions ThmRange.C36_inf_refuted.
Print Assumptions ThmRange.C37_explicit_refuted.
Print Assumptions ThmRange.C37_variant_refuted.
Print Assumptions ThmTyped.C40_refuted.
Print Assumptions ThmTyped.C40_unreadable_refuted.
Print Assumptions ThmSer.C43_depth_refuted.
Print Assumptions ThmAccept.C44_some_without_parentheses_refuted.
Print Assumptions ThmAccept.C45_explicit_refuted.
Print Assumptions DocSound.document_sound.
