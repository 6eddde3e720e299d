(** How reading a struct with flattened fields fails (C59). *)
From Coq Require Import String Ascii NArith ZArith Lia Bool List Permutation.
From Coq Require Import ZifyBool ZifyNat ZifyN.
From Verif Require Import Base Facts Value Data Parse De Span Wp EnvOk Layout Lit Attr LexSafe LexWs LexRead DocSafe DocRead SerLex LexDoc Typing Repr ReprFacts TypedRead TypedMain VRepr AnyRead AnyMain StructSpec Unwrap IntoRust Content ContentRead ContentMain ThmInto Buffered ContentWrite Tagged Owned TaggedRead TaggedWrite Flatten FlatRead.
From Verif Require Sound.
Import ListNotations.
Open Scope N_scope.
Open Scope list_scope.
Open Scope m_scope.

Section WithEnv.
Context {E : Env} {X : XidOk E} {FO : FloatOk E}.
Variable e : exts.

(** as [tr], but [m] fails with [x] in [t], at a position of the text *)
Definition tfi {A} (m : M A) (n : bool) (c : nat) (t : str) (D : str -> Prop) (x : err) : Prop :=
  forall T s r, inv T s -> rest s = t ++ r -> D r -> ext s = e -> nt s = n -> room c (lim s) ->
  wp m (fun _ _ => False) (fun y s' => x = y /\ inv T s') s.
Lemma tfi_stop {A B} (m : M A) (k : A -> M B) n c t D x : tfi m n c t D x -> tfi (bind m k) n c t D x.
Proof. intros H T s r J Hs Dr He Hn Hl. apply wp_bind. eapply wp_conseq; [apply (H T s r); auto| |auto]. now cbn beta. Qed.
Lemma tfi_bind {A B} (m : M A) (k : A -> M B) n n1 c t1 t2 (D1 D2 : str -> Prop) a x :
  tr e m n n1 c t1 D1 a -> tfi (k a) n1 c t2 D2 x -> (forall r, D2 r -> D1 (t2 ++ r)) ->
  tfi (bind m k) n c (t1 ++ t2) D2 x.
Proof.
  intros H1 H2 HD T s r J Hs Dr He Hn Hl. rewrite <- app_assoc in Hs. apply wp_bind.
  eapply wp_conseq; [apply (H1 T s (t2 ++ r)); auto| |now cbn beta]. cbn beta. intros a' s' (-> & R & J' & E' & N' & L').
  apply (H2 T s' r); auto. now rewrite L'.
Qed.
Lemma tfi_text {A} (m : M A) n c t t' D x : tfi m n c t D x -> t = t' -> tfi m n c t' D x.
Proof. now intros H <-. Qed.
Lemma tfi_D {A} (m : M A) n c t (D D' : str -> Prop) x : tfi m n c t D x -> (forall r, D' r -> D r) -> tfi m n c t D' x.
Proof. intros H HD T s r J Hs Dr He Hn Hl. apply (H T s r); auto. Qed.
Lemma tfi_fail {A} n c D x : tfi (@fail A x) n c [] D x.
Proof. intros T s r J Hs Dr He Hn Hl. now apply wp_fail. Qed.
Lemma tfi_src {B} (k : str -> M B) n c t (D : str -> Prop) x :
  (forall r, D r -> tfi (k (t ++ r)) n c t (fun r' => r' = r) x) -> tfi (bind src k) n c t D x.
Proof.
  intros H T s r J Hs Dr He Hn Hl. apply wp_bind. apply wp_ok with (t ++ r) s; [unfold src; now rewrite Hs|].
  now apply (H r Dr T s r).
Qed.
Lemma tfi_guard {A} (m : M A) n c t D x : tfi m n c t D x -> tfi (guard m) n (S c) t D x.
Proof.
  intros H T s r J Hs Dr He Hn Hl. Transparent wp. unfold wp, guard, guard_with. Opaque wp.
  destruct (lim s) as [[|l]|] eqn:L; cbn [room] in Hl; [lia| |].
  - assert (W := H T (set_lim (Some l) s) r J Hs Dr He Hn). cbn [lim set_lim] in W.
    assert (RM : room c (Some l)) by (cbn; lia). specialize (W RM). Transparent wp. unfold wp in W. Opaque wp.
    destruct (m (set_lim (Some l) s)) as [a' s'|? s'| |]; try contradiction. exact W.
  - assert (RM : room c (lim s)) by now rewrite L. assert (W := H T s r J Hs Dr He Hn RM).
    Transparent wp. unfold wp in W. Opaque wp. destruct (m s) as [a' s'|? s'| |]; try contradiction. exact W.
Qed.
Lemma tfi_de_map {A} (body : M A) n c tb D x : tfi body false c tb D x -> tfi (de_map body) n (S c) (c_lc :: tb) D x.
Proof.
  intros H. unfold de_map. apply (tfi_bind _ _ n false (S c) [] (c_lc :: tb) anything D tt); [apply tr_nt| |now intros].
  apply (tfi_bind _ _ false false (S c) [c_lc] tb anything D true); [apply tr_char| |now intros]. apply tfi_stop. now apply tfi_guard.
Qed.

Lemma tfi_trw {A B} (m : M A) (k : A -> M B) c t w t2 (D : str -> Prop) a x :
  trw e m c t a -> layout w -> (forall r, D r -> closing (t2 ++ r)) ->
  (forall w', layout w' -> tfi (k a) false c (w' ++ t2) D x) -> tfi (bind m k) false c (t ++ w ++ t2) D x.
Proof.
  intros H L HD H2 T s r J Hs Dr He Hn Hl. apply wp_bind.
  eapply wp_conseq; [apply (H T s (w ++ t2 ++ r) (fun x => exists w', layout w' /\ x = w' ++ t2 ++ r)); auto| |now cbn beta].
  - right. exists (t2 ++ r). split; [now apply HD|]. intros y. reflexivity.
  - exists w. auto.
  - now rewrite Hs, <- !app_assoc.
  - cbn beta. intros a' s' (-> & (w' & L' & R) & J' & E' & N' & Q). apply (H2 w' L' T s' r); auto; [now rewrite <- app_assoc|now rewrite Q].
Qed.

Section Struct.
Variable tenv : nat -> ty.
Variable f : nat.
Variable decls : list (str * fdecl).
Local Notation loop := (flat_loop tenv f decls).

(** after one entry and its comma *)
Lemma tfi_item c p tp w1 w2 acc w0 fuel x t3 (D3 : str -> Prop) : good_flat e tenv decls f c p tp -> layout w0 ->
  (forall k, In k (map fst (lefts [p])) -> assoc k acc = None) -> layout w1 -> layout w2 -> (forall r, D3 r -> solid (t3 ++ r)) ->
  tfi (loop fuel (lefts [p] ++ acc) true) false (S c) t3 D3 x ->
  tfi (loop (S fuel) acc true) false (S c) (w0 ++ tp ++ w1 ++ c_comma :: w2 ++ t3) D3 x.
Proof.
  intros G L0 NA L1 L2 SL NX. cbn [flat_loop]. assert (C : closer c_rc) by (cbn; tauto).
  destruct G as [k tk T v tv w w' IT GK L L' GV|k tk y tv w w' IT GK L L' GV].
  - eapply tfi_text; [eapply (tfi_trw _ _ (S c) (w0 ++ tk) w (c_colon :: w' ++ tv ++ w1 ++ c_comma :: w2 ++ t3) D3 (Some k))|texts];
      [now apply trw_key|assumption|intros r _; cbn; tauto|].
    intros w3 LW3. rewrite IT, NA by (cbn; auto). cbn [lefts flat_map app] in NX.
    eapply tfi_text; [refine (tfi_bind _ _ false false (S c) (w3 ++ c_colon :: w' ++ tv ++ w1 ++ c_comma :: w2) t3 solid D3 (v, true) _ _ NX SL)|texts].
    now apply tr_colon_comma.
  - eapply tfi_text; [eapply (tfi_trw _ _ (S c) (w0 ++ tk) w (c_colon :: w' ++ tv ++ w1 ++ c_comma :: w2 ++ t3) D3 (Some k))|texts];
      [now apply trw_key|assumption|intros r _; cbn; tauto|].
    intros w3 LW3. rewrite IT. cbn [lefts flat_map app] in NX.
    eapply tfi_text; [refine (tfi_bind _ _ false false (S c) (w3 ++ c_colon :: w' ++ tv ++ w1 ++ c_comma :: w2) t3 solid D3 (y, true) _ _ _ SL)|texts].
    + now apply tr_colon_comma.
    + cbn [fst snd]. apply tfi_stop. exact NX.
Qed.
Lemma lefts_cons (p : item) l : lefts (p :: l) = lefts [p] ++ lefts l.
Proof. destruct p; reflexivity. Qed.
Lemma tfi_loop c l t : opened (good_flat e tenv decls f c) l t ->
  forall fuel w0 acc x t3 (D3 : str -> Prop), layout w0 -> (length l < fuel)%nat ->
  (forall k, In k (map fst acc) -> ~ In k (map fst (lefts l))) -> NoDup (map fst (lefts l)) ->
  (forall r, D3 r -> solid (t3 ++ r)) ->
  (forall fuel w0, layout w0 -> (0 < fuel)%nat -> tfi (loop fuel (rev (lefts l) ++ acc) true) false (S c) (w0 ++ t3) D3 x) ->
  tfi (loop fuel acc true) false (S c) (w0 ++ t ++ t3) D3 x.
Proof.
  induction 1 as [|p t w w' l ts G L L' I IH]; intros fuel w0 acc x t3 D3 L0 F NA ND SL NX; cbn [length] in F.
  - apply NX; [assumption|lia].
  - rewrite lefts_cons, map_app in ND, NA. rewrite lefts_cons in NX. destruct fuel as [|fuel]; [lia|].
    eapply tfi_text; [eapply (tfi_item c p t w w' acc w0 fuel x (ts ++ t3) D3); auto|texts].
    + intros k KP. apply assoc_none. intros IN. apply (NA _ IN). apply in_or_app. now left.
    + intros r Dr. rewrite <- app_assoc. destruct I as [|p' t' w1 w1' l' ts' G' _ _ _]; [now apply SL|]. rewrite <- app_assoc.
      apply opens_solid. eapply good_flat_opens; exact G'.
    + apply (IH fuel [] (lefts [p] ++ acc) x t3 D3); [constructor|lia| | |assumption|].
      * intros k IN. rewrite map_app in IN. apply in_app_or in IN as [IN|IN].
        -- intros IN2. destruct p as [[k' v]|]; [|destruct IN]. destruct IN as [<-|[]]. inversion ND; subst. contradiction.
        -- intros IN2. apply (NA k IN). apply in_or_app. now right.
      * destruct p as [[k' v]|]; [now inversion ND|exact ND].
      * intros fuel' w1 L1 F1. specialize (NX fuel' w1 L1 F1). rewrite rev_app_distr, <- app_assoc in NX.
        replace (rev (lefts [p])) with (lefts [p]) in NX by now destruct p as [[k' v]|]. exact NX.
Qed.
Lemma tfi_duplicate c fuel acc w0 tk k : layout w0 -> (0 < fuel)%nat -> string_lit tk k ->
  assoc k (owns decls) <> None -> assoc k acc <> None ->
  tfi (loop fuel acc true) false (S c) (w0 ++ tk) anything (EDuplicateStructField k None).
Proof.
  intros L0 F HK KF KA. destruct fuel as [|fuel]; [lia|]. cbn [flat_loop].
  eapply tfi_text; [eapply (tfi_bind _ _ false false (S c) (w0 ++ tk) [] anything anything (Some k))|now rewrite app_nil_r].
  - apply tr_key; [cbn; tauto|assumption|intros r; apply (crepr_opens false 0 (XStr k) tk); now apply c_str|]. eapply tr_D; [apply tr_lex, reads_string; exact HK|now intros].
  - destruct (assoc k (owns decls)); [|contradiction]. destruct (assoc k acc); [|contradiction]. apply tfi_fail.
  - auto.
Qed.
Lemma opened_len c l t : opened (good_flat e tenv decls f c) l t -> (length l <= length t)%nat.
Proof.
  induction 1 as [|p t w w' l ts G L L' I IH]; [reflexivity|]. cbn [length]. repeat (rewrite app_length || cbn [length]).
  unfold str, char in *. lia.
Qed.
Lemma tfi_missing o n c acc k T fl2 : forall fl1, Forall (fun ft => assoc (fst ft) acc <> None \/ o (snd ft) = true) fl1 ->
  assoc k acc = None -> o T = false ->
  tfi (collect o (fl1 ++ (k, T) :: fl2) acc) n c [] anything (EMissingStructField k None).
Proof.
  intros fl1 F N O. induction F as [|[j jt] fl1 H F IH]; cbn [app collect].
  - rewrite N, O. apply tfi_stop, tfi_fail.
  - cbn [fst snd] in H. destruct (assoc j acc) as [v|].
    + apply (tfi_bind _ _ n n c [] [] anything anything v); [apply tr_ret| |now intros]. apply tfi_stop. exact IH.
    + destruct H as [H|H]; [contradiction|]. rewrite H. apply (tfi_bind _ _ n n c [] [] anything anything VNone); [apply tr_ret| |now intros]. apply tfi_stop. exact IH.
Qed.
End Struct.

(** ** The three ways to fail *)
Variable sf : token -> Prop.
Variable tenv : nat -> ty.
Variable fok : fk -> N -> Prop.
Variable decls : list (str * fdecl).
Local Notation own_ok c l := (Forall (fun fv : str * val => exists T, In (fst fv, T) (own_types decls) /\ typed tenv fok T (snd fv) /\ (need (snd fv) <= c)%nat) l).
Lemma opened_good c (l : list item) t : opened (flat_item e sf c) l t -> NoDup (map fst (own_types decls)) -> own_ok c (lefts l) ->
  Forall (fun kx => ~ In (fst kx) (map fst (own_types decls))) (rights l) ->
  exists n, forall f, (n <= f)%nat -> opened (good_flat e tenv decls f c) l t.
Proof.
  intros IT ND FL FR. induction IT as [|a t w w' l ts H L L' I0 IH].
  - exists 0%nat. intros; constructor.
  - change (a :: l) with ([a] ++ l) in FL, FR. unfold lefts, rights in FL, FR. rewrite flat_map_app in FL, FR. apply Forall_app in FL as [F1 F2]. apply Forall_app in FR as [F3 F4].
    destruct (flat_good_one e sf tenv fok decls c ND a t) as (n & G); auto. destruct (IH F2 F4) as (m & G'). exists (Nat.max n m). intros f LF.
    apply op_cons; auto; [apply G; lia|apply G'; lia].
Qed.
(** a field of the struct itself given twice *)
Theorem flat_twice deny sname c l t w tk k : opened (flat_item e sf c) l t -> layout w -> NoDup (map fst (own_types decls)) -> own_ok c (lefts l) ->
  Forall (fun kx => ~ In (fst kx) (map fst (own_types decls))) (rights l) -> NoDup (map fst (lefts l)) -> In k (map fst (lefts l)) -> string_lit tk k ->
  exists n, forall f, (n <= f)%nat -> tfi (de_flat tenv f deny sname decls) false (S (S c)) (c_lc :: w ++ t ++ tk) anything (EDuplicateStructField k None).
Proof.
  intros OP L ND OW FR NL IN HK. destruct (opened_good c l t OP ND OW FR) as (n & G). exists n. intros f LF. specialize (G f LF).
  unfold de_flat. apply tfi_de_map. unfold flat_map_body. apply tfi_src. intros r _. apply tfi_stop.
  apply (tfi_loop tenv f decls c l t G (2 + length ((w ++ t ++ tk) ++ r)) w []); auto.
  - assert (H := opened_len tenv f decls c l t G). rewrite !app_length. unfold str, char in *. lia.
  - intros r' _. apply opens_solid. apply (crepr_opens false 0 (XStr k) tk). now apply c_str.
  - intros fuel w1 L1 F1. rewrite app_nil_r. eapply tfi_D; [apply tfi_duplicate; auto|now intros].
    + intros Q. apply Sound.assoc_none in Q. apply Q. apply in_map_iff in IN as (fv & <- & IN). rewrite Forall_forall in OW. destruct (OW _ IN) as (T & IT & _).
      now apply (in_map fst) in IT.
    + intros Q. apply Sound.assoc_none in Q. apply Q. rewrite map_rev, <- in_rev. exact IN.
Qed.
Lemma loop_done f c l t w n : items (good_flat e tenv decls f c) l t -> layout w -> NoDup (map fst (lefts l)) -> (length l < n)%nat ->
  tr e (flat_loop tenv f decls n [] true) false false (S c) (w ++ t) (begins c_rc) (rev (lefts l), rights l).
Proof. intros G L ND LN. rewrite <- (app_nil_r (rev (lefts l))). apply tr_flat_loop; auto. split; auto. Qed.
(** a field of the struct itself left out *)
Theorem flat_missing deny sname c l t w before k T after : items (flat_item e sf c) l t -> layout w -> NoDup (map fst (own_types decls)) -> own_ok c (lefts l) ->
  Forall (fun kx => ~ In (fst kx) (map fst (own_types decls))) (rights l) -> NoDup (map fst (lefts l)) ->
  own_types decls = before ++ (k, T) :: after -> Forall (fun ft => In (fst ft) (map fst (lefts l)) \/ is_option tenv (snd ft) = true) before ->
  ~ In k (map fst (lefts l)) -> is_option tenv T = false ->
  exists n, forall f, (n <= f)%nat -> tfi (de_flat tenv f deny sname decls) false (S (S c)) (c_lc :: w ++ t) (begins c_rc) (EMissingStructField k None).
Proof.
  intros IT L ND OW FR NL QF BF NK O. destruct (flat_good e sf tenv fok decls c l t IT ND OW FR) as (n & G). exists n. intros f LF. specialize (G f LF).
  unfold de_flat. apply tfi_de_map. unfold flat_map_body. apply tfi_src. intros r B.
  eapply tfi_text; [eapply (tfi_bind _ _ false false (S c) (w ++ t) [] (begins c_rc) _ (rev (lefts l), rights l))|now rewrite app_nil_r].
  - apply loop_done; auto. assert (H := items_length _ _ _ (good_flat_opens e tenv decls f c) G). rewrite !app_length. unfold str, char in *. lia.
  - cbn [fst snd]. rewrite own_eq, QF. apply tfi_stop. eapply tfi_D; [apply tfi_missing; [|apply assoc_none|exact O]|now intros].
    + eapply Forall_impl; [|exact BF]. intros ft [H|H]; [left|now right]. intros Q. apply Sound.assoc_none in Q. apply Q. now rewrite map_rev, <- in_rev.
    + now rewrite map_rev, <- in_rev.
  - now intros r' ->.
Qed.
(** an entry that no field takes *)
Theorem flat_denied sname c l t w own flat left : items (flat_item e sf c) l t -> layout w -> NoDup (map fst (own_types decls)) ->
  map fst own = map fst (own_types decls) -> Permutation own (lefts l) -> own_ok c own ->
  Forall (fun kx => ~ In (fst kx) (map fst (own_types decls))) (rights l) ->
  enough (fun f => flat_rest tenv f decls (rights l) = CVal (flat, left)) -> left <> [] ->
  exists n, forall f, (n <= f)%nat -> tfi (de_flat tenv f true sname decls) false (S (S c)) (c_lc :: w ++ t) (begins c_rc) EMessage.
Proof.
  intros IT L ND EQ P OW FR [m CV] LF0.
  destruct (flat_good e sf tenv fok decls c l t IT ND) as (n & G); [eapply Permutation_Forall; eassumption|exact FR|].
  exists (Nat.max n m). intros f LF. specialize (G f ltac:(lia)). specialize (CV f ltac:(lia)).
  assert (NDL : NoDup (map fst (lefts l))) by (eapply Permutation_NoDup; [apply Permutation_map; exact P|now rewrite EQ]).
  unfold de_flat. apply tfi_de_map. unfold flat_map_body. apply tfi_src. intros r B.
  eapply tfi_text; [eapply (tfi_bind _ _ false false (S c) (w ++ t) [] (begins c_rc) _ (rev (lefts l), rights l))|now rewrite app_nil_r].
  - apply loop_done; auto. assert (H := items_length _ _ _ (good_flat_opens e tenv decls f c) G). rewrite !app_length. unfold str, char in *. lia.
  - cbn [fst snd]. apply (tfi_bind _ _ false false (S c) [] [] anything _ own); [apply tr_collect, fields_collected; auto| |now intros].
    rewrite CV. destruct left; [contradiction|]. cbn [andb negb]. apply tfi_fail.
  - now intros r' ->.
Qed.
End WithEnv.
