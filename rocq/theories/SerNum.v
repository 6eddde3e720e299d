(** Numbers and ranges as the serializer writes them. *)
From Coq Require Import String Ascii NArith ZArith Lia Bool List.
From Coq Require Import ZifyBool ZifyNat ZifyN.
From Verif Require Import Base Facts EnvOk Value Data Parse De Ser Lit ShowFacts SerLex Repr ReprFacts RangeSpec SerWp.
Import ListNotations.
Open Scope N_scope.
Open Scope list_scope.
Open Scope sm_scope.

Section WithEnv.
Context {E : Env} {X : XidOk E} {FO : FloatOk E}.

Lemma float_cases k b : b < 2 ^ f_bits k /\ canon k b = b ->
  (f_finite k b /\ pointed (float_text k b) /\ f_read k (float_text k b) = Some b) \/
  exists f, special_float (float_text k b) f /\ b = f k.
Proof.
  intros [B C]. unfold float_text, canon in *. destruct (f_is_nan k b) eqn:NA.
  - right. rewrite show_nan, not_integral by (first [assumption|unfold f_is_nan in NA; lia]). rewrite app_nil_r. cbn [andb].
    destruct (f_sign k b).
    + exists (fun k => f_nan k + f_signbit k). split; [constructor|congruence].
    + exists f_nan. split; [constructor|]. rewrite N.add_0_r in C. congruence.
  - cbn [andb app]. unfold f_is_nan in NA. assert (FS := f_split k b B).
    destruct (N.eq_dec (f_abs k b) (f_inf k)) as [EI|NI].
    + right. rewrite (show_inf k b EI), not_integral by lia. rewrite app_nil_r. rewrite EI in FS. destruct (f_sign k b).
      * exists (fun k => f_inf k + f_signbit k). split; [constructor|assumption].
      * exists f_inf. split; [constructor|]. now rewrite N.add_0_r in FS.
    + assert (FF : f_finite k b) by (split; lia). left. split; [exact FF|]. split; [|exact (read_finite k b FF)].
      destruct (show_finite k b FF) as (ds & fs & [DN D] & [FN F] & ->).
      assert (SG : exists neg, sign (if f_sign k b then [c_minus] else []) neg) by (destruct (f_sign k b); eexists; constructor).
      destruct SG as [neg SG]. rewrite <- !app_assoc.
      destruct (f_integral k b); cbn [app].
      * rewrite <- (app_nil_r s_point_zero). eapply (pt_fraction _ neg ds [c_0] []); eauto; [discriminate|constructor].
      * rewrite <- (app_nil_r fs), <- app_assoc. eapply pt_fraction; eauto. constructor.
Qed.

Lemma least_kind_some k z : int_supported k = true -> in_range k z = true -> exists k', least_kind (z <? 0)%Z z = Some k'.
Proof.
  intros S R. unfold least_kind. destruct (find _ _) eqn:F; [eauto|]. exfalso.
  assert (N := fun k0 IN => find_none _ _ F k0 IN). cbn beta in N. unfold int_kinds in N.
  destruct (Z.ltb_spec z 0).
  - assert (W : In k [I128; U128] \/ in_range I64 z = true) by (destruct k; cbn; auto; right; unfold in_range in *; cbn in *; lia).
    destruct W as [W|W].
    + assert (G : in_range I128 z = true). { destruct W as [<-|[<-|[]]]; [exact R|]. unfold in_range in *; cbn in *; lia. }
      rewrite N in G; [discriminate|]. apply filter_In. split; [cbn; auto 10|]. destruct W as [<-|[<-|[]]]; exact S.
    + rewrite N in W; [discriminate|]. apply filter_In. split; [cbn; auto 10|apply orb_true_r].
  - assert (W : In k [I128; U128] \/ in_range U64 z = true) by (destruct k; cbn; auto; right; unfold in_range in *; cbn in *; lia).
    destruct W as [W|W].
    + assert (G : in_range U128 z = true). { destruct W as [<-|[<-|[]]]; [|exact R]. unfold in_range in *; cbn in *; lia. }
      rewrite N in G; [discriminate|]. apply filter_In. split; [cbn; auto 10|]. destruct W as [<-|[<-|[]]]; exact S.
    + rewrite N in W; [discriminate|]. apply filter_In. split; [cbn; auto 10|apply orb_true_r].
Qed.

Lemma show_Z_num k z : least_kind (z <? 0)%Z z = Some k -> num_text (NInt k z) (show_Z z).
Proof.
  intros LK. destruct z as [|p|p]; cbn [show_Z].
  - apply (n_int [] false [] 10 [48] 0%Z k); [constructor|constructor|apply (show_N_int 0)|exact LK].
  - apply (n_int [] false [] 10 (show_N (Npos p)) (Zpos p) k); [constructor|constructor|apply (show_N_int (Npos p))|exact LK].
  - apply (n_int [c_minus] true [] 10 (show_N (Npos p)) (Zpos p) k); [constructor|constructor|apply (show_N_int (Npos p))|exact LK].
Qed.
Lemma show_Z_lead z r : num_lead (show_Z z ++ r).
Proof.
  assert (H : forall n, exists c t, show_N n = c :: t /\ is_digit c = true).
  { intros n. assert (D : forallb is_digit (show_N n) = true) by apply digits_dec. assert (L := proj1 (show_N_digits n)).
    destruct (show_N n) as [|c t]; [congruence|]. cbn in D. apply andb_prop in D as [D _]. eauto. }
  destruct z as [|p|p]; cbn [show_Z].
  - cbn. auto.
  - destruct (H (Npos p)) as (c & t & -> & D). cbn. auto.
  - cbn. auto.
Qed.
(** the smallest type is no 128-bit one if there is another *)
Lemma least_kind_128 k k' z : in_range k z = true -> is_128 k = false -> least_kind (z <? 0)%Z z = Some k' -> is_128 k' = false.
Proof.
  intros R NK LK. unfold least_kind, int_kinds in LK.
  assert (W : if (z <? 0)%Z then in_range I64 z = true else in_range U64 z = true).
  { destruct (Z.ltb_spec z 0); destruct k; try discriminate; unfold in_range in *; cbn in *; lia. }
  assert (SU : forall k, is_128 k = false -> int_supported k = true) by (intros k0 Q; unfold int_supported; rewrite Q; apply orb_true_r).
  destruct (z <? 0)%Z; cbn [filter] in LK; rewrite !SU in LK by reflexivity; cbn [find] in LK; rewrite W in LK;
    repeat match type of LK with (if ?c then Some _ else _) = _ => destruct c; [injection LK as <-; reflexivity|] end; injection LK as <-; reflexivity.
Qed.

Variable cfg : option pconf.
Definition num_text_of (v : val) : str :=
  match v with
  | VInt k z => show_Z z ++ (if number_suffixes cfg then ik_suffix k else [])
  | VFloat k b => float_text k b ++ (if number_suffixes cfg then fk_suffix k else [])
  | _ => []
  end.
Lemma float_lead k b : b < 2 ^ f_bits k /\ canon k b = b -> f_finite k b \/ f_sign k b = true -> forall r, num_lead (float_text k b ++ r).
Proof.
  intros FV L r. unfold float_text. destruct (f_is_nan k b) eqn:NA.
  - assert (f_sign k b = true) as -> by (destruct L as [[_ L]|]; [unfold f_is_nan in NA; lia|assumption]). cbn. auto.
  - cbn [andb app]. unfold f_is_nan in NA. destruct (N.eq_dec (f_abs k b) (f_inf k)) as [EI|NI].
    + assert (f_sign k b = true) as SG by (destruct L as [[_ L]|]; [lia|assumption]). rewrite (show_inf k b EI), SG. cbn. auto.
    + destruct (show_finite k b) as (ds & fs & [DN D] & _ & ->); [split; [apply FV|lia]|]. destruct (f_sign k b); [cbn; auto|].
      destruct ds as [|c ds]; [congruence|]. cbn in D. apply andb_prop in D as [D _]. cbn. auto.
Qed.
Lemma bound_text v : widens -> is_number v = true -> (forall k z, v = VInt k z -> int_supported k = true) ->
  (forall k b, v = VFloat k b -> b < 2 ^ f_bits k /\ canon k b = b) -> bound_fine (number_suffixes cfg) v -> bound v (num_text_of v).
Proof.
  intros WI NU SU FV BF. destruct v as [|k z|k b| | | | | | | | | | | | | | | | | | |]; try discriminate; cbn [num_text_of bound_fine] in *.
  - destruct (number_suffixes cfg) eqn:SX.
    + apply (b_int k k); [|auto]. apply n_int_suffix; [now apply (SU k z)|apply show_Z_lit|exact BF].
    + rewrite app_nil_r. destruct (least_kind_some k z) as [k' LK]; [now apply (SU k z)|exact BF|].
      apply (b_int k k'); [now apply show_Z_num|]. intros H. destruct (is_128 k) eqn:Q; [reflexivity|]. rewrite <- H. symmetry. eapply least_kind_128; eassumption.
  - specialize (FV k b eq_refl). destruct (float_cases k b FV) as [(FF & PT & RD)|(f & SP & EQ)].
    + destruct (number_suffixes cfg) eqn:SX; [now apply b_float, n_float_suffix|]. rewrite app_nil_r.
      destruct k.
      * destruct BF as [BF|(b' & R & <-)]; [discriminate|]. assert (NT := n_float _ b' PT R). unfold least_float in NT.
        destruct (b' =? f_widen (f_narrow b')); [now apply b_float|now apply b_narrow].
      * assert (NT := n_float _ b PT RD). unfold least_float in NT. destruct (N.eqb_spec b (f_widen (f_narrow b))) as [EQ|].
        -- rewrite EQ at 1. now apply b_widen.
        -- now apply b_float.
    + destruct (number_suffixes cfg) eqn:SX; [rewrite EQ at 1; apply b_float, n_special_suffix; exact SP|]. rewrite app_nil_r.
      destruct k.
      * destruct BF as [BF|(b' & R & EB)]; [discriminate|]. remember (float_text F32 b) as t eqn:TT. clear TT FV SU NU. rewrite EQ in EB |- *.
        destruct SP.
        -- apply b_float, n_inf.
        -- rewrite read_minf in R. injection R as <-. assert (NT := n_minf). unfold least_float in NT. rewrite <- EB.
           destruct (_ =? _); [now apply b_float|now apply b_narrow].
        -- apply b_float, n_nan.
        -- rewrite read_mnan in R. injection R as <-. assert (NT := n_mnan). unfold least_float in NT. rewrite <- EB.
           destruct (_ =? _); [now apply b_float|now apply b_narrow].
      * remember (float_text F64 b) as t eqn:TT. clear TT. subst b. destruct (WI F64 _ _ SP) as [W|]; [|discriminate].
        destruct SP.
        -- rewrite <- W. apply b_widen, n_inf.
        -- assert (NT := n_minf). unfold least_float in NT. destruct (N.eqb_spec (f_inf F64 + f_signbit F64) (f_widen (f_narrow (f_inf F64 + f_signbit F64)))) as [EQ|].
           ++ rewrite EQ. now apply b_widen.
           ++ now apply b_float.
        -- rewrite <- W. apply b_widen, n_nan.
        -- assert (NT := n_mnan). unfold least_float in NT. destruct (N.eqb_spec (f_nan F64 + f_signbit F64) (f_widen (f_narrow (f_nan F64 + f_signbit F64)))) as [EQ|].
           ++ rewrite EQ. now apply b_widen.
           ++ now apply b_float.
Qed.
End WithEnv.
