(** C29-C32: numbers, values and maps are lawfully ordered; maps are finite
    maps; the last of several equal keys wins. *)
From Coq Require Import String Ascii NArith ZArith Lia Bool List.
From Coq Require Import ZifyBool ZifyNat ZifyN.
From Verif Require Import Base Facts Value ValueFacts Data Parse De Toy DocSafe.
Import ListNotations.
Open Scope N_scope.
Open Scope list_scope.

(** ** C29

    [wf_num]: the payload of an F32 or F64 is a bit pattern of its width. *)
Theorem C29_equal_iff_same : forall a b, wf_num a -> wf_num b -> num_cmp a b = Eq <-> a = b.
Proof. exact (cmp_eq _ _ num_lawful). Qed.
Print Assumptions C29_equal_iff_same.
Theorem C29_antisymmetric : forall a b, wf_num a -> wf_num b -> num_cmp b a = CompOpp (num_cmp a b).
Proof. exact (cmp_opp _ _ num_lawful). Qed.
Print Assumptions C29_antisymmetric.
Theorem C29_transitive : forall a b c, wf_num a -> wf_num b -> wf_num c ->
  num_cmp a b = Lt -> num_cmp b c = Lt -> num_cmp a c = Lt.
Proof. exact (cmp_lt _ _ num_lawful). Qed.
Print Assumptions C29_transitive.
Theorem C29_equal_hash : forall a b, wf_num a -> wf_num b -> num_cmp a b = Eq <-> num_hash a = num_hash b.
Proof. exact num_hash_iff. Qed.
Print Assumptions C29_equal_hash.
(** integers of one width compare as integers *)
Theorem C29_integers : forall k x y, num_cmp (NInt k x) (NInt k y) = Z.compare x y.
Proof. exact num_cmp_int. Qed.
Print Assumptions C29_integers.
(** floats of one width compare by the number they denote; only the two zeros
    denote the same number, and -0.0 is the smaller *)
Theorem C29_floats : forall k x y, x < 2 ^ f_bits k -> y < 2 ^ f_bits k -> finite k x -> finite k y ->
  num_cmp (NFloat k x) (NFloat k y)
  = match Z.compare (denotes k x) (denotes k y) with
    | Eq => bool_cmp (f_sign k y) (f_sign k x)
    | c => c
    end.
Proof. exact num_cmp_float. Qed.
Print Assumptions C29_floats.
(** a positive NaN is above, a negative one below everything that is no NaN *)
Theorem C29_nans : forall k x y, x < 2 ^ f_bits k -> y < 2 ^ f_bits k ->
  f_is_nan k x = true -> f_is_nan k y = false ->
  num_cmp (NFloat k x) (NFloat k y) = if f_sign k x then Lt else Gt.
Proof. exact num_cmp_nan. Qed.
Print Assumptions C29_nans.

Example C29_examples :
  let one := 1065353216 in let mzero := 2147483648 in
  num_cmp (NFloat F32 (f_nan F32)) (NFloat F32 (f_nan F32)) = Eq
  /\ num_cmp (NFloat F32 mzero) (NFloat F32 0) = Lt /\ denotes F32 mzero = denotes F32 0
  /\ finite F32 one /\ denotes F32 one = (2 ^ 149)%Z
  /\ num_cmp (NFloat F32 0) (NFloat F32 one) = Lt
  /\ num_cmp (NFloat F32 one) (NFloat F32 (f_inf F32)) = Lt
  /\ num_cmp (NInt U128 5) (NFloat F32 0) = Lt.
Proof. vm_compute. repeat split. Qed.

(** ** C30

    [wf_value]: every number in the value satisfies [wf_num]. *)
Theorem C30_equal_iff_same : forall a b, wf_value a -> wf_value b -> value_cmp a b = Eq <-> a = b.
Proof. exact (cmp_eq _ _ value_lawful). Qed.
Print Assumptions C30_equal_iff_same.
Theorem C30_antisymmetric : forall a b, wf_value a -> wf_value b -> value_cmp b a = CompOpp (value_cmp a b).
Proof. exact (cmp_opp _ _ value_lawful). Qed.
Print Assumptions C30_antisymmetric.
Theorem C30_transitive : forall a b c, wf_value a -> wf_value b -> wf_value c ->
  value_cmp a b = Lt -> value_cmp b c = Lt -> value_cmp a c = Lt.
Proof. exact (cmp_lt _ _ value_lawful). Qed.
Print Assumptions C30_transitive.
Theorem C30_eq_operator : forall a b, wf_value a -> wf_value b -> value_eqb a b = true <-> a = b.
Proof. exact value_eqb_eq. Qed.
Print Assumptions C30_eq_operator.
Theorem C30_equal_hash : forall a b, wf_value a -> wf_value b -> value_eqb a b = true -> value_hash a = value_hash b.
Proof. exact value_eqb_hash. Qed.
Print Assumptions C30_equal_hash.
(** strings: the model compares characters, Rust compares bytes *)
Theorem C30_text_order : forall s t, wf_str s -> wf_str t ->
  list_cmp N.compare (enc s) (enc t) = list_cmp N.compare s t.
Proof. exact enc_order. Qed.
Print Assumptions C30_text_order.

Example C30_examples :
  let m := XMap [(XNum (NInt U8 1), XStr [97]); (XSome (XNum (NFloat F64 (f_nan F64))), XSeq [XUnit; XBool true])] in
  wf_value m /\ value_cmp m m = Eq /\ value_cmp m (XSeq []) = Lt
  /\ value_cmp (XSeq [XNone]) (XSeq [XNone; XUnit]) = Lt
  /\ value_cmp (XSome XNone) XNone = Gt
  /\ value_cmp (XStr [8364]) (XStr [128512]) = Lt.
Proof. vm_compute. repeat split; repeat constructor. Qed.
Example C30_text_example : wf_str [8364; 97].
Proof. repeat constructor. Qed.

(** ** C31

    [run_ops l] is the map after the operations [l] on an empty one. *)
Theorem C31_lookup : forall l k, Forall op_ok l -> wf_value k ->
  map_get k (run_ops l) = fold_left spec_apply l (fun _ => None) k.
Proof. exact run_get. Qed.
Print Assumptions C31_lookup.
Theorem C31_insert_previous : forall l k v, Forall op_ok l -> wf_value k ->
  fst (map_insert k v (run_ops l)) = fold_left spec_apply l (fun _ => None) k.
Proof. exact run_insert_prev. Qed.
Print Assumptions C31_insert_previous.
Theorem C31_remove_previous : forall l k, Forall op_ok l -> wf_value k ->
  fst (map_remove k (run_ops l)) = fold_left spec_apply l (fun _ => None) k.
Proof. exact run_remove_prev. Qed.
Print Assumptions C31_remove_previous.
(** iteration is strictly ascending, and yields exactly the bindings *)
Theorem C31_ascending : forall l a k1 v1 k2 v2 b, Forall op_ok l ->
  run_ops l = a ++ (k1, v1) :: (k2, v2) :: b -> value_cmp k1 k2 = Lt.
Proof. exact run_ascending. Qed.
Print Assumptions C31_ascending.
Theorem C31_keys_once : forall l, Forall op_ok l -> NoDup (map fst (run_ops l)).
Proof. exact run_nodup. Qed.
Print Assumptions C31_keys_once.
Theorem C31_iteration : forall l k v, Forall op_ok l -> wf_value k ->
  In (k, v) (run_ops l) <-> fold_left spec_apply l (fun _ => None) k = Some v.
Proof. exact run_in. Qed.
Print Assumptions C31_iteration.
(** so the map is determined by its bindings, not by its history *)
Theorem C31_extensional : forall l l', Forall op_ok l -> Forall op_ok l' ->
  (forall k, wf_value k -> fold_left spec_apply l (fun _ => None) k = fold_left spec_apply l' (fun _ => None) k) ->
  run_ops l = run_ops l'.
Proof. exact run_ext. Qed.
Print Assumptions C31_extensional.

Example C31_examples :
  let k n := XNum (NInt U8 (Z.of_N n)) in
  let l := [Insert (k 2) XUnit; Insert (k 1) XNone; Insert (k 2) (XBool true); Insert (k 3) XUnit; Remove (k 3);
            Insert (k 7) XUnit; Retain (fun k' _ => value_eqb k' (k 2) || value_eqb k' (k 1))] in
  Forall op_ok l /\ run_ops l = [(k 1, XNone); (k 2, XBool true)]
  /\ map_get (k 2) (run_ops l) = Some (XBool true)
  /\ fst (map_insert (k 1) XUnit (run_ops l)) = Some XNone.
Proof. cbv zeta. split; [repeat constructor|]. vm_compute. auto. Qed.

(** ** C32

    [last_binding k l]: the value of the last entry of [l] with key [k]. *)
Theorem C32_last_binding : forall k l v, wf_value k -> Forall wf_entry l ->
  last_binding k l = Some v <->
  exists a b, l = a ++ (k, v) :: b /\ ~ In k (map fst b).
Proof. exact last_binding_iff. Qed.
Print Assumptions C32_last_binding.
Theorem C32_last_wins : forall m k, Forall wf_entry m -> wf_value k ->
  exists n, norm (XMap m) = XMap n /\
    map_get k n = last_binding k (map (fun kv => (norm (fst kv), norm (snd kv))) m).
Proof. exact norm_map_get. Qed.
Print Assumptions C32_last_wins.
(** what a document is read as when a Value is asked for *)
Theorem C32_document : forall (E : Env) T f o text v s,
  from_str o (de_ty T (S f) TAny) text = Ok v s ->
  exists x s', from_str o any_value text = Ok x s' /\ v = embed (norm x).
Proof. exact @any_document. Qed.
Print Assumptions C32_document.

Example C32_examples :
  match @from_str Toy _ opts_default (@de_ty Toy (fun _ => TUnit) 1 TAny)
     (lit "{1: true, 0x1: false, 'a': (), 0b1 /* again */: Some(2),}") with
  | Ok v _ => v = VMap [(VChar 97, VUnit); (VInt U8 1, VSome (VInt U8 2))]
  | _ => False end.
Proof. vm_compute. reflexivity. Qed.
