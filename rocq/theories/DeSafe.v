(** The deserializer never panics, never runs out of fuel, only moves forward,
    and restores its recursion budget. *)
From Coq Require Import String Ascii NArith ZArith Lia Bool List.
From Coq Require Import ZifyBool ZifyNat ZifyN.
From Verif Require Import Base Facts Value Data Parse De Wp EnvOk LexSafe.
Import ListNotations.
Open Scope N_scope.
Open Scope list_scope.
Open Scope m_scope.

(** what a deserializer call does to the state when it succeeds, and when it
    fails *)
Definition dok (T : str) (s s' : st) : Prop :=
  inv T s' /\ suf (rest s') (rest s) /\ ext s' = ext s /\ lim s' = lim s /\
  (nt s = false -> nt s' = false).
Definition derr (T : str) (s s' : st) : Prop :=
  inv T s' /\ suf (rest s') (rest s) /\ ext s' = ext s.

Lemma adv_dok T s s' : adv T s s' -> dok T s s'.
Proof. intros (A & B & C & D & F & G). unfold dok. intuition congruence. Qed.
Lemma dok_derr T s s' : dok T s s' -> derr T s s'.
Proof. unfold dok, derr. tauto. Qed.
Lemma adv_derr T s s' : adv T s s' -> derr T s s'.
Proof. intros. now apply dok_derr, adv_dok. Qed.
Lemma dok_refl T s : inv T s -> dok T s s.
Proof. intros. now apply adv_dok, adv_refl. Qed.
Lemma derr_refl T s : inv T s -> derr T s s.
Proof. intros. now apply adv_derr, adv_refl. Qed.
Lemma dok_trans T a b c : dok T a b -> dok T b c -> dok T a c.
Proof.
  intros (_ & S1 & E1 & L1 & N1) (I & S2 & E2 & L2 & N2). unfold dok.
  split; [assumption|]. split; [eapply suf_trans; eassumption|]. intuition congruence.
Qed.
Lemma dok_derr_trans T a b c : dok T a b -> derr T b c -> derr T a c.
Proof.
  intros (_ & S1 & E1 & L1 & N1) (I & S2 & E2). unfold derr.
  split; [assumption|]. split; [eapply suf_trans; eassumption|]. congruence.
Qed.
Lemma dok_inv T a b : dok T a b -> inv T b.
Proof. now intros []. Qed.
Lemma dok_len T a b : dok T a b -> (length (rest b) <= length (rest a))%nat.
Proof. intros (_ & S & _). now apply suf_length. Qed.
Lemma dok_nt T s : inv T s -> dok T s (set_nt false s).
Proof. intros I. unfold dok. split; [exact I|]. split; [apply suf_refl|]. auto. Qed.
Lemma dok_last_id T s i : inv T s -> dok T s (set_last_id i s).
Proof. intros I. unfold dok. split; [exact I|]. split; [apply suf_refl|]. auto. Qed.

(** [m] is safe from every state satisfying [P] *)
Definition safe {A} (T : str) (P : st -> Prop) (m : M A) : Prop :=
  forall s, inv T s -> P s -> wp m (fun _ s' => dok T s s') (fun _ s' => derr T s s') s.

(** at most [n] characters left, [newtype_variant] clear unless [b], budget [l] *)
Definition at_ (n : nat) (b : bool) (l : option nat) (s : st) : Prop :=
  (length (rest s) <= n)%nat /\ (b = false -> nt s = false) /\ lim s = l.
Lemma at_dok T n b l s s' : at_ n b l s -> dok T s s' -> at_ n b l s'.
Proof.
  intros (A & B & C) D. assert (L := dok_len _ _ _ D). destruct D as (_ & _ & _ & D & F).
  unfold at_. split; [lia|]. split; [auto|congruence].
Qed.
Lemma at_weaken n n' b l s : (n <= n')%nat -> at_ n b l s -> at_ n' b l s.
Proof. unfold at_. intuition lia. Qed.

(** a predicate on the budget left inside a guard *)
Definition gd (P : option nat -> Prop) (l : option nat) : Prop :=
  match l with None => P None | Some O => True | Some (S l') => P (Some l') end.
Lemma gd_mono (P Q : option nat -> Prop) l : (forall l', P l' -> Q l') -> gd P l -> gd Q l.
Proof. destruct l as [[|l]|]; cbn; auto. Qed.

Lemma safe_total {A} T P (m : M A) : total m -> safe T P m.
Proof.
  intros H s I _. eapply wp_conseq; [apply (H T s I)| |]; cbn; intros;
    [now apply adv_dok|now apply adv_derr].
Qed.
Lemma safe_ret {A} T P (a : A) : safe T P (ret a).
Proof. intros s I _. apply wp_ret. now apply dok_refl. Qed.
Lemma safe_fail {A} T P e : safe T P (@fail A e).
Proof. intros s I _. apply wp_fail. now apply derr_refl. Qed.
Lemma safe_weaken {A} T (P P' : st -> Prop) (m : M A) : (forall s, P' s -> P s) -> safe T P m -> safe T P' m.
Proof. intros H S s I Q. apply S; auto. Qed.

(** sequencing inside a wp proof *)
Lemma wp_step {A B} T s (m : M A) (k : A -> M B) :
  wp m (fun _ s' => dok T s s') (fun _ s' => derr T s s') s ->
  (forall a s', dok T s s' ->
     wp (k a) (fun _ s'' => dok T s' s'') (fun _ s'' => derr T s' s'') s') ->
  wp (bind m k) (fun _ s' => dok T s s') (fun _ s' => derr T s s') s.
Proof.
  intros H K. apply wp_bind. eapply wp_conseq; [exact H| |auto]. cbn. intros a s' D.
  eapply wp_conseq; [apply (K a s' D)| |]; cbn; intros;
    [eapply dok_trans|eapply dok_derr_trans]; eassumption.
Qed.
(** the same, for a predicate that survives *)
Lemma safe_bind {A B} T n b l (m : M A) (k : A -> M B) :
  safe T (at_ n b l) m -> (forall a, safe T (at_ n b l) (k a)) -> safe T (at_ n b l) (bind m k).
Proof.
  intros H K s I P. apply wp_step; [now apply H|]. intros a s' D.
  apply K; [apply D|]. eapply at_dok; eassumption.
Qed.
Lemma safe_map_err {A} T P f (m : M A) : safe T P m -> safe T P (map_err f m).
Proof. intros H s I Q. apply wp_map_err. now apply H. Qed.

(** modifications of the state that the relations allow *)
Lemma wp_step_set {B} T s f (k : M B) : dok T s (f s) ->
  wp k (fun _ s' => dok T (f s) s') (fun _ s' => derr T (f s) s') (f s) ->
  wp (modify f ;;; k) (fun _ s' => dok T s s') (fun _ s' => derr T s s') s.
Proof.
  intros D H. apply wp_bind, wp_modify. eapply wp_conseq; [exact H| |]; cbn; intros;
    [eapply dok_trans|eapply dok_derr_trans]; eassumption.
Qed.

Lemma wp_guard_with {A} r T s n b (m : M A) : inv T s -> (length (rest s) <= n)%nat ->
  (b = false -> nt s = false) ->
  gd (fun l => safe T (at_ n b l) m) (lim s) ->
  wp (guard_with r m) (fun _ s' => dok T s s') (fun _ s' => derr T s s') s.
Proof.
  intros I L N G. Transparent wp. unfold wp, guard_with. Opaque wp.
  destruct (lim s) as [[|l]|] eqn:Hl; cbn in G.
  - now apply derr_refl.
  - specialize (G (set_lim (Some l) s) I). Transparent wp. unfold wp in G. Opaque wp.
    destruct (m (set_lim (Some l) s)) as [a s'|e s'| |].
    + destruct G as (A1 & A2 & A3 & A4 & A5); [split; [exact L|]; split; [exact N|reflexivity]|].
      unfold dok. cbn in *. rewrite A4, Hl. cbn. auto.
    + destruct G as (A1 & A2 & A3); [split; [exact L|]; split; [exact N|reflexivity]|].
      destruct r; unfold derr; cbn in *; auto.
    + apply G. split; [exact L|]; split; [exact N|reflexivity].
    + apply G. split; [exact L|]; split; [exact N|reflexivity].
  - apply (G s I). split; [exact L|]; split; [exact N|assumption].
Qed.
Lemma safe_guard_with {A} r T n b l (m : M A) :
  gd (fun l => safe T (at_ n b l) m) l -> safe T (at_ n b l) (guard_with r m).
Proof. intros G s I (L & N & <-). now apply wp_guard_with with n b. Qed.

Section WithEnv.
Context {E : Env} {X : XidOk E}.

(** ** Loops *)

Lemma total_has_element term had : total (has_element term had).
Proof.
  unfold has_element. apply total_bind; [apply total_skip_ws|]. intros _.
  apply total_bind; [apply total_check_char|]. intros t. destruct had; [apply total_ret|].
  destruct t; [apply total_ret|apply total_fail].
Qed.
(** without a comma there is no further element *)
Lemma has_element_no_comma term T s : inv T s ->
  wp (has_element term false) (fun b s' => adv T s s' /\ b = false) (fun _ s' => adv T s s') s.
Proof.
  intros I. unfold has_element. apply wp_bind.
  apply wp_total with T; [apply total_skip_ws|assumption| |auto]. intros _ s1 A1.
  eapply wp_bind_ok; [reflexivity|].
  destruct (match rest s1 with [] => false | d :: _ => d =? term end);
    [apply wp_ret; auto|now apply wp_fail].
Qed.

(** an element list: after each element either a comma was eaten or none is
    claimed *)
Lemma next_element_safe {A} T n l term (elem : M A) (had : bool) s :
  gd (fun l => safe T (at_ n false l) elem) l -> inv T s -> at_ n false l s ->
  wp (next_element term elem had)
     (fun p s' => dok T s s' /\
        match p with
        | (None, _) => True
        | (Some _, c) => had = true /\ (c = true -> (length (rest s') < length (rest s))%nat)
        end)
     (fun _ s' => derr T s s') s.
Proof.
  intros G I P. unfold next_element.
  assert (H : wp (has_element term had)
                (fun b s' => adv T s s' /\ (b = true -> had = true)) (fun _ s' => adv T s s') s).
  { destruct had.
    - eapply wp_conseq; [apply (total_has_element term true T s I)| |]; cbn; auto.
    - eapply wp_conseq; [apply (has_element_no_comma term T s I)| |]; cbn; [|auto].
      intros b s' [A1 ->]. split; [assumption|congruence]. }
  apply wp_bind. eapply wp_conseq; [exact H| |intros; now apply adv_derr]. cbn.
  intros b s1 [A1 B1]. assert (D1 := adv_dok _ _ _ A1). destruct b.
  2:{ apply wp_ret. auto. }
  specialize (B1 eq_refl). subst had.
  assert (P1 := at_dok _ _ _ _ _ _ P D1).
  apply wp_bind. eapply wp_conseq; [apply (safe_guard_with false T n false l elem G s1); [apply D1|exact P1]| |].
  2:{ cbn. intros. eapply dok_derr_trans; eassumption. }
  cbn. intros a s2 D2. assert (D := dok_trans _ _ _ _ D1 D2).
  apply wp_bind. eapply wp_conseq; [apply (comma_total T s2); apply D2| |].
  2:{ cbn. intros e s3 A3. eapply dok_derr_trans; [exact D|]. now apply adv_derr. }
  cbn. intros c s3 [A3 C3]. apply wp_ret. split; [eapply dok_trans; [exact D|now apply adv_dok]|].
  split; [reflexivity|]. intros C. specialize (C3 C). assert (Y := dok_len _ _ _ D). lia.
Qed.

Lemma seq_loop_safe {A} T n l term (elem : M A) k (had : bool) s :
  gd (fun l => safe T (at_ n false l) elem) l -> inv T s -> at_ n false l s ->
  (length (rest s) + (if had then 2 else 1) <= k)%nat ->
  wp (seq_loop k term elem had) (fun _ s' => dok T s s') (fun _ s' => derr T s s') s.
Proof.
  intros G. revert had s. induction k as [|k IH]; intros had s I P L; [destruct had; lia|].
  cbn [seq_loop]. apply wp_bind.
  eapply wp_conseq; [apply (next_element_safe T n l term elem had s G I P)| |auto]. cbn.
  intros [[a|] c] s1 [D1 H1]; [|now apply wp_ret].
  destruct H1 as [-> H1]. assert (Y := dok_len _ _ _ D1).
  apply wp_bind. eapply wp_conseq; [apply (IH c s1)| |]; cbn.
  - apply D1.
  - eapply at_dok; eassumption.
  - destruct c; [specialize (H1 eq_refl)|]; lia.
  - intros l' s2 D2. apply wp_ret. eapply dok_trans; eassumption.
  - intros e s2 D2. eapply dok_derr_trans; eassumption.
Qed.
Lemma seq_all_safe {A} T n l term (elem : M A) :
  gd (fun l => safe T (at_ n false l) elem) l -> safe T (at_ n false l) (seq_all term elem).
Proof.
  intros G s I P. unfold seq_all. eapply wp_bind_ok; [reflexivity|].
  eapply seq_loop_safe; [exact G|assumption|assumption|lia].
Qed.

Lemma tuple_elems_safe {A} T n l (elems : list (M A)) i had :
  Forall (fun m => gd (fun l => safe T (at_ n false l) m) l) elems ->
  safe T (at_ n false l) (tuple_elems elems i had).
Proof.
  intros G. revert i had. induction G as [|m ms G GS IH]; intros i had s I P; cbn [tuple_elems].
  { now apply (safe_ret T (at_ n false l)). }
  apply wp_bind.
  eapply wp_conseq; [apply (next_element_safe T n l c_rp m had s G I P)| |auto]. cbn.
  intros [[a|] c] s1 [D1 H1]; [|apply wp_fail; now apply dok_derr].
  apply wp_bind. eapply wp_conseq; [apply (IH (S i) c s1)| |]; cbn.
  - apply D1.
  - eapply at_dok; eassumption.
  - intros l' s2 D2. apply wp_ret. eapply dok_trans; eassumption.
  - intros e s2 D2. eapply dok_derr_trans; eassumption.
Qed.

Lemma next_key_safe {A} T n l term (key : M A) (had : bool) s :
  gd (fun l => safe T (at_ n false l) key) l -> inv T s -> at_ n false l s ->
  wp (next_key term key had)
     (fun o s' => dok T s s' /\ (o <> None -> had = true))
     (fun _ s' => derr T s s') s.
Proof.
  intros G I P. unfold next_key.
  assert (H : wp (has_element term had)
                (fun b s' => adv T s s' /\ (b = true -> had = true)) (fun _ s' => adv T s s') s).
  { destruct had.
    - eapply wp_conseq; [apply (total_has_element term true T s I)| |]; cbn; auto.
    - eapply wp_conseq; [apply (has_element_no_comma term T s I)| |]; cbn; [|auto].
      intros b s' [A1 ->]. split; [assumption|congruence]. }
  apply wp_bind. eapply wp_conseq; [exact H| |intros; now apply adv_derr]. cbn.
  intros b s1 [A1 B1]. assert (D1 := adv_dok _ _ _ A1). destruct b.
  2:{ apply wp_ret. split; [assumption|congruence]. }
  apply wp_bind. eapply wp_conseq; [apply (safe_guard_with true T n false l key G s1)| |].
  - apply D1.
  - eapply at_dok; eassumption.
  - cbn. intros a s2 D2. apply wp_ret. split; [eapply dok_trans; eassumption|auto].
  - cbn. intros. eapply dok_derr_trans; eassumption.
Qed.
Lemma next_value_safe {A} T n l (value : M A) s :
  gd (fun l => safe T (at_ n false l) value) l -> inv T s -> at_ n false l s ->
  wp (next_value value)
     (fun p s' => dok T s s' /\ (length (rest s') < length (rest s))%nat)
     (fun _ s' => derr T s s') s.
Proof.
  intros G I P. unfold next_value. apply wp_bind.
  apply wp_total with T; [apply total_skip_ws|assumption| |intros; now apply adv_derr].
  intros _ s1 A1. apply wp_bind, wp_consume_char with T; [apply A1| |].
  2:{ intros _. apply wp_fail. now apply adv_derr. }
  intros r Hr A2. assert (V := adv_trans _ _ _ _ A1 A2).
  assert (L : (length r < length (rest s))%nat).
  { assert (Y := suf_length _ _ (proj1 (proj2 A1))). rewrite Hr in Y. cbn in Y. lia. }
  apply wp_bind. apply wp_total with T; [apply total_skip_ws|apply A2| |].
  2:{ intros e s3 A3. apply adv_derr. eapply adv_trans; eassumption. }
  intros _ s3 A3. assert (V' := adv_trans _ _ _ _ V A3). assert (D3 := adv_dok _ _ _ V').
  assert (L3 : (length (rest s3) < length (rest s))%nat).
  { assert (Y := suf_length _ _ (proj1 (proj2 A3))). cbn in Y. lia. }
  destruct P as (P1 & P2 & P3).
  apply wp_bind. eapply wp_conseq; [apply (safe_guard_with false T n false l value G s3)| |].
  - apply D3.
  - destruct D3 as (_ & _ & _ & D3 & D4). split; [lia|]. split; [auto|congruence].
  - cbn. intros v s4 D4. assert (D := dok_trans _ _ _ _ D3 D4).
    apply wp_bind. apply wp_total with T; [apply total_comma|apply D4| |].
    + intros c s5 A5. apply wp_ret. split; [eapply dok_trans; [exact D|now apply adv_dok]|].
      assert (Y := dok_len _ _ _ D4). assert (Z := suf_length _ _ (proj1 (proj2 A5))). lia.
    + intros e s5 A5. eapply dok_derr_trans; [exact D|]. now apply adv_derr.
  - cbn. intros. eapply dok_derr_trans; eassumption.
Qed.

Lemma map_loop_safe {A B} T n l term (key : M A) (value : M B) k (had : bool) s :
  gd (fun l => safe T (at_ n false l) key) l -> gd (fun l => safe T (at_ n false l) value) l ->
  inv T s -> at_ n false l s -> (length (rest s) + 1 <= k)%nat ->
  wp (map_loop k term key value had) (fun _ s' => dok T s s') (fun _ s' => derr T s s') s.
Proof.
  intros G H. revert had s. induction k as [|k IH]; intros had s I P L; [lia|].
  cbn [map_loop]. apply wp_bind.
  eapply wp_conseq; [apply (next_key_safe T n l term key had s G I P)| |auto]. cbn.
  intros [a|] s1 [D1 _]; [|now apply wp_ret].
  assert (P1 := at_dok _ _ _ _ _ _ P D1). assert (Y1 := dok_len _ _ _ D1).
  apply wp_bind. eapply wp_conseq; [apply (next_value_safe T n l value s1 H); [apply D1|exact P1]| |].
  2:{ cbn. intros. eapply dok_derr_trans; eassumption. }
  cbn. intros p s2 [D2 L2]. assert (D := dok_trans _ _ _ _ D1 D2).
  apply wp_bind. eapply wp_conseq; [apply (IH (snd p) s2)| |]; cbn.
  - apply D2.
  - eapply at_dok; eassumption.
  - lia.
  - intros l' s3 D3. apply wp_ret. eapply dok_trans; eassumption.
  - intros e s3 D3. eapply dok_derr_trans; eassumption.
Qed.
Lemma map_all_safe {A B} T n l term (key : M A) (value : M B) :
  gd (fun l => safe T (at_ n false l) key) l -> gd (fun l => safe T (at_ n false l) value) l ->
  safe T (at_ n false l) (map_all term key value).
Proof.
  intros G H s I P. unfold map_all. eapply wp_bind_ok; [reflexivity|].
  eapply map_loop_safe; [exact G|exact H|assumption|assumption|lia].
Qed.

Lemma safe_identifier T n b l : safe T (at_ n b l) de_identifier.
Proof.
  unfold de_identifier. apply safe_bind; [apply safe_total, eats_total, identifier_eats|].
  intros id s I P. apply wp_step_set; [now apply dok_last_id|]. apply wp_ret. now apply dok_refl.
Qed.

(** ** Brackets *)

(** closing a bracket that [skip_ws] precedes *)
Lemma close_safe {A} T s c e (v : A) : inv T s ->
  wp (skip_ws ;;; c <- consume_char c ;; if c then ret v else fail e)
     (fun _ s' => dok T s s') (fun _ s' => derr T s s') s.
Proof.
  intros I. apply (@safe_total _ T (fun _ => True)); [|assumption|exact Logic.I].
  apply total_bind; [apply total_skip_ws|]. intros _.
  apply total_bind; [apply total_consume_char|]. intros []; [apply total_ret|apply total_fail].
Qed.
Lemma comma_close_safe {A} T s c e (v : A) : inv T s ->
  wp (comma ;;; c <- consume_char c ;; if c then ret v else fail e)
     (fun _ s' => dok T s s') (fun _ s' => derr T s s') s.
Proof.
  intros I. apply (@safe_total _ T (fun _ => True)); [|assumption|exact Logic.I].
  apply total_bind; [apply total_comma|]. intros _.
  apply total_bind; [apply total_consume_char|]. intros []; [apply total_ret|apply total_fail].
Qed.

Lemma wp_de_seq {A} T s n (body : M A) : inv T s -> (length (rest s) <= S n)%nat ->
  (rest s <> [] -> gd (fun l => safe T (at_ n false l) body) (lim s)) ->
  wp (de_seq body) (fun _ s' => dok T s s') (fun _ s' => derr T s s') s.
Proof.
  intros I L G. unfold de_seq. apply wp_step_set; [now apply dok_nt|].
  set (s0 := set_nt false s). apply wp_bind, wp_consume_char with T; [exact I| |].
  2:{ intros _. apply wp_fail. now apply derr_refl. }
  intros r Hr A1. assert (D1 := adv_dok _ _ _ A1). change (rest s0) with (rest s) in Hr.
  apply wp_bind. eapply wp_conseq.
  { apply wp_guard_with with (n := n) (b := false) (T := T); [apply A1| |reflexivity|apply G; now rewrite Hr].
    cbn. rewrite Hr in L. cbn in L. lia. }
  2:{ cbn. intros. eapply dok_derr_trans; eassumption. }
  cbn. intros v s2 D2. assert (D := dok_trans _ _ _ _ D1 D2).
  eapply wp_conseq; [apply close_safe, D2| |]; cbn; intros;
    [eapply dok_trans|eapply dok_derr_trans]; eassumption.
Qed.

Lemma wp_de_map {A} T s n (body : M A) : inv T s -> (length (rest s) <= S n)%nat ->
  (rest s <> [] -> gd (fun l => safe T (at_ n false l) body) (lim s)) ->
  wp (de_map body) (fun _ s' => dok T s s') (fun _ s' => derr T s s') s.
Proof.
  intros I L G. unfold de_map. apply wp_step_set; [now apply dok_nt|].
  set (s0 := set_nt false s). apply wp_bind, wp_consume_char with T; [exact I| |].
  2:{ intros _. apply wp_fail. now apply derr_refl. }
  intros r Hr A1. assert (D1 := adv_dok _ _ _ A1). change (rest s0) with (rest s) in Hr.
  apply wp_bind. eapply wp_conseq.
  { apply wp_guard_with with (n := n) (b := false) (T := T); [apply A1| |reflexivity|apply G; now rewrite Hr].
    cbn. rewrite Hr in L. cbn in L. lia. }
  2:{ cbn. intros. eapply dok_derr_trans; eassumption. }
  cbn. intros v s2 D2. assert (D := dok_trans _ _ _ _ D1 D2).
  eapply wp_conseq; [apply close_safe, D2| |]; cbn; intros;
    [eapply dok_trans|eapply dok_derr_trans]; eassumption.
Qed.

(** the shared shape of tuples and structs: parentheses unless a newtype
    variant was unwrapped *)
Lemma wp_parens {A} T s n (body : M A) (onfail : M A) : inv T s ->
  (length (rest s) <= (if nt s then n else S n))%nat ->
  (nt s = true \/ rest s <> [] -> gd (fun l => safe T (at_ n false l) body) (lim s)) ->
  wp onfail (fun _ s' => dok T s s') (fun _ s' => derr T s s') s ->
  wp (s <- get ;;
      b <- (if nt s then ret true else consume_char c_lp) ;;
      if b then
        modify (set_nt false) ;;;
        v <- guard body ;;
        skip_ws ;;;
        c <- (if nt s then ret true else consume_char c_rp) ;;
        if c then ret v else fail EExpectedStructLikeEnd
      else onfail) (fun _ s' => dok T s s') (fun _ s' => derr T s s') s.
Proof.
  intros I L G F. apply wp_bind, wp_get. destruct (nt s) eqn:N.
  - apply wp_bind, wp_ret. apply wp_step_set; [now apply dok_nt|]. apply wp_bind.
    eapply wp_conseq.
    { apply wp_guard_with with (n := n) (b := false) (T := T); [exact I|exact L|reflexivity|apply G; now left]. }
    2:{ cbn. auto. }
    cbn. intros v s2 D2. apply wp_bind. apply wp_total with T; [apply total_skip_ws|apply D2| |].
    + intros _ s3 A3. apply wp_bind, wp_ret, wp_ret. eapply dok_trans; [exact D2|now apply adv_dok].
    + intros e s3 A3. eapply dok_derr_trans; [exact D2|now apply adv_derr].
  - apply wp_bind, wp_consume_char with T; [exact I| |intros _; exact F].
    intros r Hr A1. assert (D1 := adv_dok _ _ _ A1).
    eapply wp_conseq with (Q := fun _ s' => dok T (moved r s) s') (R := fun _ s' => derr T (moved r s) s').
    2:{ cbn. intros. eapply dok_trans; eassumption. }
    2:{ cbn. intros. eapply dok_derr_trans; eassumption. }
    apply wp_step_set; [apply dok_nt, A1|]. apply wp_bind.
    eapply wp_conseq.
    { apply wp_guard_with with (n := n) (b := false) (T := T); [apply A1| |reflexivity|apply G; right; now rewrite Hr].
      cbn. rewrite Hr in L. cbn in L. lia. }
    2:{ cbn. auto. }
    cbn. intros v s2 D2.
    eapply wp_conseq; [apply close_safe, D2| |]; cbn; intros;
      [eapply dok_trans|eapply dok_derr_trans]; eassumption.
Qed.
Lemma wp_de_tuple {A} T s n (body : M A) : inv T s ->
  (length (rest s) <= (if nt s then n else S n))%nat ->
  (nt s = true \/ rest s <> [] -> gd (fun l => safe T (at_ n false l) body) (lim s)) ->
  wp (de_tuple body) (fun _ s' => dok T s s') (fun _ s' => derr T s s') s.
Proof.
  intros I L G. apply (wp_parens T s n); auto. apply wp_fail. now apply derr_refl.
Qed.
Lemma wp_struct_after_name {A} T s n name (body : M A) : inv T s ->
  (length (rest s) <= (if nt s then n else S n))%nat ->
  (nt s = true \/ rest s <> [] -> gd (fun l => safe T (at_ n false l) body) (lim s)) ->
  wp (struct_after_name name body) (fun _ s' => dok T s s') (fun _ s' => derr T s s') s.
Proof.
  intros I L G. unfold struct_after_name.
  apply wp_bind, wp_get. destruct (nt s) eqn:N.
  - pose (P := wp_parens T s n
      (map_err (struct_error_name (if negb true && negb (is_nil name) then Some name else None)) body)
      (match name with [] => fail EExpectedStructLike | _ => fail (EExpectedNamedStructLike name) end)).
    rewrite N in P. 
    assert (P' := P I L). clear P.
    Transparent wp. unfold wp, bind, get in P'. unfold wp, bind. rewrite N in P'. Opaque wp.
    apply P'.
    + intros Y. eapply gd_mono; [|apply G, Y]. intros l. apply safe_map_err.
    + destruct name; apply derr_refl, I.
  - pose (P := wp_parens T s n
      (map_err (struct_error_name (if negb false && negb (is_nil name) then Some name else None)) body)
      (match name with [] => fail EExpectedStructLike | _ => fail (EExpectedNamedStructLike name) end)).
    rewrite N in P. 
    assert (P' := P I L). clear P.
    Transparent wp. unfold wp, bind, get in P'. unfold wp, bind. rewrite N in P'. Opaque wp.
    apply P'.
    + intros Y. eapply gd_mono; [|apply G, Y]. intros l. apply safe_map_err.
    + destruct name; apply derr_refl, I.
Qed.

Lemma consume_ident_taken w s : ident_at w (rest s) = true ->
  exists r, rest s = w ++ r /\ consume_ident w s = Ok true (moved r s).
Proof.
  intros H. rewrite consume_ident_eq, H. unfold ident_at in H.
  destruct (strip_prefix w (rest s)) as [t|] eqn:Y; [|discriminate].
  apply strip_prefix_some in Y. eauto.
Qed.

Lemma wp_de_option {A} T s (b : bool) (none : A) (some : M A) : inv T s ->
  (b = false -> nt s = false) ->
  (forall n, (n < length (rest s))%nat -> gd (fun l => safe T (at_ n true l) some) (lim s)) ->
  (ident_at s_Some (rest s) = false -> gd (fun l => safe T (at_ (length (rest s)) b l) some) (lim s)) ->
  wp (de_option none some) (fun _ s' => dok T s s') (fun _ s' => derr T s s') s.
Proof.
  intros I NB G1 G2. unfold de_option.
  apply wp_bind, wp_consume_ident with T; [assumption| |].
  { intros r Hr A1. apply wp_ret. now apply adv_dok. }
  (* the implicit case, at any state reached after an optional [Some] *)
  assert (IMP : forall s1 b', adv T s s1 -> (b' = false -> nt s1 = false) ->
    gd (fun l => safe T (at_ (length (rest s1)) b' l) some) (lim s) ->
    wp (s <- get ;; if x_implicit_some (ext s) then guard_r some else fail EExpectedOption)
       (fun _ s' => dok T s s') (fun _ s' => derr T s s') s1).
  { intros s1 b' A1 NB1 G. assert (D1 := adv_dok _ _ _ A1). apply wp_bind, wp_get.
    destruct (x_implicit_some (ext s1)); [|apply wp_fail; now apply dok_derr].
    eapply wp_conseq; [apply (wp_guard_with true T s1 (length (rest s1)) b' some)| |]; cbn.
    - apply A1.
    - lia.
    - exact NB1.
    - replace (lim s1) with (lim s); [exact G|]. symmetry. apply A1.
    - intros. eapply dok_trans; eassumption.
    - intros. eapply dok_derr_trans; eassumption. }
  apply wp_bind. destruct (ident_at s_Some (rest s)) eqn:SM.
  2:{ eapply wp_ok; [now apply consume_ident_false|]. apply wp_bind, wp_ret.
      apply (IMP s b); [now apply adv_refl|exact NB|now apply G2]. }
  destruct (consume_ident_taken _ _ SM) as (r & Hr & CI). eapply wp_ok; [exact CI|].
  assert (L1 : (length r < length (rest s))%nat) by (rewrite Hr, app_length; cbn; lia).
  assert (A1 : adv T s (moved r s)) by (apply adv_moved; [assumption|rewrite Hr; apply suf_app]).
  apply wp_bind, wp_bind. apply wp_total with T; [apply total_skip_ws|apply A1| |].
  2:{ intros e s2 A2. apply adv_derr. eapply adv_trans; eassumption. }
  intros _ s2 A2. assert (V2 := adv_trans _ _ _ _ A1 A2).
  assert (Y2 := suf_length _ _ (proj1 (proj2 A2))). cbn in Y2.
  apply wp_consume_char with T; [apply A2| |].
  2:{ intros _. apply (IMP s2 true); [assumption|discriminate|apply G1; lia]. }
  intros r3 Hr3 A3. assert (V3 := adv_trans _ _ _ _ V2 A3).
  assert (Y3 := suf_length _ _ (proj1 (proj2 A3))). cbn in Y3.
  eapply wp_conseq with (Q := fun _ s' => dok T (moved r3 s2) s')
                        (R := fun _ s' => derr T (moved r3 s2) s').
  2:{ cbn. intros. eapply dok_trans; [apply adv_dok|]; eassumption. }
  2:{ cbn. intros. eapply dok_derr_trans; [apply adv_dok|]; eassumption. }
  apply wp_bind. apply wp_total with T; [apply total_skip_ws|apply A3| |].
  2:{ intros. now apply adv_derr. }
  intros _ s4 A4. assert (V4 := adv_trans _ _ _ _ V3 A4).
  assert (Y4 := suf_length _ _ (proj1 (proj2 A4))). cbn in Y4.
  apply wp_bind, wp_modify. set (b5 := x_unwrap_variant_newtypes (ext s4)).
  set (s5 := set_nt b5 s4).
  assert (I5 : inv T s5) by apply A4.
  apply wp_bind. eapply wp_conseq; [apply (wp_guard_with false T s5 (length (rest s5)) true some)| |].
  - exact I5.
  - lia.
  - discriminate.
  - replace (lim s5) with (lim s); [apply G1; cbn; lia|]. symmetry. apply V4.
  - cbn. intros v s6 D6.
    assert (N : nt (moved r3 s2) = nt s4) by (symmetry; apply A4).
    apply wp_bind, wp_modify. set (s7 := set_nt false s6).
    assert (D7 : dok T (moved r3 s2) s7).
    { destruct D6 as (Q1 & Q2 & Q3 & Q4 & Q5). destruct A4 as (W1 & W2 & W3 & W4 & W5 & W6).
      unfold dok. subst s7 s5. cbn in *. split; [exact Q1|]. split; [eapply suf_trans; eassumption|].
      split; [congruence|]. split; [congruence|reflexivity]. }
    eapply wp_conseq; [apply comma_close_safe, D7| |]; cbn; intros;
      [eapply dok_trans|eapply dok_derr_trans]; eassumption.
  - cbn. intros e s6 (Q1 & Q2 & Q3). destruct A4 as (W1 & W2 & W3 & W4 & W5 & W6).
    unfold derr. subst s5. cbn in *. split; [exact Q1|]. split; [eapply suf_trans; eassumption|congruence].
Qed.

Lemma safe_de_unit T P : safe T P de_unit.
Proof.
  intros s I _. unfold de_unit. apply wp_bind, wp_get. apply wp_step.
  - destruct (nt s); [apply (safe_ret T (fun _ => True)); auto|].
    apply (@safe_total _ T (fun _ => True)); [apply total_consume_str|assumption|exact Logic.I].
  - intros [] s' D; [|apply wp_fail, derr_refl, D]. apply wp_modify. apply dok_nt, D.
Qed.
Lemma safe_de_unit_struct T P name : safe T P (de_unit_struct name).
Proof.
  intros s I _. unfold de_unit_struct. apply wp_step.
  - destruct (str_eqb name s_RangeFull); [|apply (safe_ret T (fun _ => True)); auto].
    apply (@safe_total _ T (fun _ => True)); [apply total_consume_str|assumption|exact Logic.I].
  - intros [] s1 D1; [apply wp_ret, dok_refl, D1|]. apply wp_bind, wp_get. apply wp_step.
    + destruct (nt s1); [apply (safe_ret T (fun _ => True)); auto; apply D1|].
      apply (@safe_total _ T (fun _ => True)); [apply total_consume_struct_name|apply D1|exact Logic.I].
    + intros [] s' D; [apply wp_modify, dok_nt, D|].
      apply (safe_de_unit T (fun _ => True)); [apply D|exact Logic.I].
Qed.

Lemma wp_de_newtype {A} T s n name (inner : M A) : inv T s -> (length (rest s) <= n)%nat ->
  gd (fun l => safe T (at_ n false l) inner) (lim s) ->
  wp (de_newtype name inner) (fun _ s' => dok T s s') (fun _ s' => derr T s s') s.
Proof.
  intros I L G. unfold de_newtype. apply wp_bind, wp_get.
  destruct (x_unwrap_newtypes (ext s) || nt s) eqn:UN.
  { apply wp_step_set; [now apply dok_nt|].
    apply wp_guard_with with n false; [assumption|exact L|reflexivity|exact G]. }
  assert (F : forall s', inv T s' -> wp (match name with [] => fail EExpectedStructLike | _ => fail (EExpectedNamedStructLike name) end)
     (fun _ : A => dok T s') (fun _ => derr T s') s').
  { intros s' I'. destruct name; apply wp_fail; now apply derr_refl. }
  apply wp_step; [apply (@safe_total _ T (fun _ => True)); [apply total_consume_struct_name|assumption|exact Logic.I]|].
  intros _ s1 D1.
  apply wp_step; [apply (@safe_total _ T (fun _ => True)); [apply total_skip_ws|apply D1|exact Logic.I]|].
  intros _ s2 D2.
  apply wp_step; [apply (@safe_total _ T (fun _ => True)); [apply total_consume_char|apply D2|exact Logic.I]|].
  intros [] s3 D3; [|apply F, D3].
  apply wp_step; [apply (@safe_total _ T (fun _ => True)); [apply total_skip_ws|apply D3|exact Logic.I]|].
  intros _ s4 D4.
  assert (D : dok T s s4) by eauto using dok_trans. assert (Y := dok_len _ _ _ D).
  apply wp_step.
  - apply wp_guard_with with n false; [apply D4|lia| |].
    { intros _. apply D. now apply orb_false_iff in UN. }
    replace (lim s4) with (lim s); [exact G|]. symmetry. apply D.
  - intros v s5 D5. apply comma_close_safe, D5.
Qed.

(** ** Tokens inside [safe] *)
Lemma total_float_range n : total (float_range_or_value n).
Proof.
  unfold float_range_or_value. apply total_bind; [apply total_consume_str|]. intros [].
  { apply total_bind; [apply total_any_number|]. intros. apply total_ret. }
  apply total_bind; [apply total_consume_str|]. intros []; [|apply total_ret].
  apply total_bind; [apply total_src|]. intros r. destruct (num_start r); [|apply total_ret].
  apply total_bind; [apply total_any_number|]. intros. apply total_ret.
Qed.

Lemma safe_de_bytes T n b l : safe T (at_ n b l) de_bytes.
Proof.
  intros s I P. unfold de_bytes. eapply wp_bind_ok; [reflexivity|].
  destruct (match rest s with [] => false | d :: _ => d =? c_lb end).
  2:{ apply (@safe_total _ T (fun _ => True)); [apply total_byte_string|assumption|exact Logic.I]. }
  apply wp_step; [|intros x s' D; apply wp_ret, dok_refl, D].
  apply wp_de_seq with (n := length (rest s)); [assumption|lia|]. intros _.
  assert (G : forall l, safe T (at_ (length (rest s)) false l) (p <- integer (Some U8) ;; ret (Z.to_N (snd p)))).
  { intros l'. apply safe_total. apply total_bind; [apply total_integer|intros; apply total_ret]. }
  assert (H : forall l, safe T (at_ (length (rest s)) false l)
     (seq_all c_rb (p <- integer (Some U8) ;; ret (Z.to_N (snd p))))).
  { intros l'. apply seq_all_safe. destruct l' as [[]|]; cbn; auto. }
  destruct (lim s) as [[]|]; cbn; auto.
Qed.

Lemma safe_any_number_or_bytes T n b l : safe T (at_ n b l) any_number_or_bytes.
Proof.
  intros s I P. unfold any_number_or_bytes. eapply wp_bind_ok; [reflexivity|].
  destruct (starts_with [c_b] (rest s) && negb (starts_with s_bsq (rest s))).
  { apply wp_step; [now apply (safe_de_bytes T n b l)|]. intros x s' D. apply wp_ret, dok_refl, D. }
  eapply wp_bind_ok; [reflexivity|].
  assert (K : forall f : num -> value, total (e <- any_number ;; ret (f e))).
  { intros f. apply total_bind; [apply total_any_number|intros; apply total_ret]. }
  destruct (starts_with s_dotdoteq (rest s)).
  { apply (@safe_total _ T (fun _ => True)); [|assumption|exact Logic.I].
    apply total_bind; [apply total_consume_str|]. intros _. apply K. }
  eapply wp_bind_ok; [reflexivity|].
  destruct (starts_with s_dotdot (rest s)) eqn:DD.
  - apply starts_with_iff in DD as [r Hr]. apply wp_bind.
    eapply wp_of_slice; [rewrite Hr; apply (bdrop_app s_dotdot r)|].
    apply (@safe_total _ T (fun _ => True)); [|assumption|exact Logic.I].
    destruct (match r with [] => false | c :: _ => is_number_start c (rest s) end).
    + apply total_bind; [apply total_consume_str|]. intros _. apply K.
    + apply total_bind; [apply total_consume_str|]. intros _. apply total_ret.
  - apply (@safe_total _ T (fun _ => True)); [|assumption|exact Logic.I].
    apply total_bind; [apply total_any_number|]. intros. apply total_float_range.
Qed.

(** ** deserialize_any *)

Lemma gd_all (P : option nat -> Prop) l : (forall l', P l') -> gd P l.
Proof. destruct l as [[]|]; cbn; auto. Qed.
Lemma wp_token {A} T s (m : M A) : inv T s -> total m ->
  wp m (fun _ s' => dok T s s') (fun _ s' => derr T s s') s.
Proof. intros I H. apply (@safe_total _ T (fun _ => True)); [exact H|assumption|exact Logic.I]. Qed.

Lemma safe_map_ret {A B} T n b l (m : M A) (f : A -> B) :
  safe T (at_ n b l) m -> safe T (at_ n b l) (x <- m ;; ret (f x)).
Proof. intros H. apply safe_bind; [exact H|]. intros a. apply safe_ret. Qed.

Lemma any_map_body_safe T n l any : (forall l, safe T (at_ n false l) any) ->
  safe T (at_ n false l)
    (l <- map_all c_rp (k <- de_identifier ;; ret (XStr k)) any ;; ret (XMap l)).
Proof.
  intros H. apply safe_map_ret, map_all_safe; [|now apply gd_all].
  apply gd_all. intros l'. apply safe_map_ret, safe_identifier.
Qed.
Lemma any_seq_body_safe T n l term any : (forall l, safe T (at_ n false l) any) ->
  safe T (at_ n false l) (l <- seq_all term any ;; ret (XSeq l)).
Proof. intros H. apply safe_map_ret, seq_all_safe. now apply gd_all. Qed.

Lemma any_struct_safe T s n any : inv T s ->
  (length (rest s) <= (if nt s then n else S n))%nat ->
  (forall l, safe T (at_ n false l) any) ->
  wp (t <- check_struct_type true false ;;
      match t with
      | SUnit => ret XUnit
      | Named => struct_after_name [] (l <- map_all c_rp (k <- de_identifier ;; ret (XStr k)) any ;;
                                       ret (XMap l))
      | _ => de_tuple (l <- seq_all c_rp any ;; ret (XSeq l))
      end) (fun _ s' => dok T s s') (fun _ s' => derr T s s') s.
Proof.
  intros I L H. apply wp_bind.
  apply wp_total with T; [apply total_check_struct_type|assumption| |intros; now apply adv_derr].
  intros t s1 A1. assert (D1 := adv_dok _ _ _ A1). assert (Y := dok_len _ _ _ D1).
  assert (N : nt s1 = nt s) by apply A1.
  eapply wp_conseq with (Q := fun _ s' => dok T s1 s') (R := fun _ s' => derr T s1 s').
  2:{ cbn. intros. eapply dok_trans; eassumption. }
  2:{ cbn. intros. eapply dok_derr_trans; eassumption. }
  assert (L1 : (length (rest s1) <= (if nt s1 then n else S n))%nat) by (rewrite N; destruct (nt s); lia).
  assert (TUP : wp (de_tuple (l <- seq_all c_rp any ;; ret (XSeq l)))
                   (fun _ s' => dok T s1 s') (fun _ s' => derr T s1 s') s1).
  { apply wp_de_tuple with n; [apply D1|exact L1|]. intros _. apply gd_all. intros. now apply any_seq_body_safe. }
  destruct t; try exact TUP.
  - apply wp_struct_after_name with n; [apply D1|exact L1|]. intros _. apply gd_all. intros.
    now apply any_map_body_safe.
  - apply wp_ret, dok_refl, D1.
Qed.

Lemma any_main_safe T s any : inv T s -> nt s = false ->
  (forall n b l, (n < length (rest s))%nat -> safe T (at_ n b l) any) ->
  wp (any_main any) (fun _ s' => dok T s s') (fun _ s' => derr T s s') s.
Proof.
  intros I N H. unfold any_main.
  (* the keywords *)
  apply wp_bind, wp_consume_ident with T; [assumption|intros; apply wp_ret; now apply adv_dok|].
  apply wp_bind, wp_consume_ident with T; [assumption|intros; apply wp_ret; now apply adv_dok|].
  eapply wp_bind_ok; [apply check_ident_eq|].
  destruct (ident_at s_Some (rest s)) eqn:SM.
  { destruct (consume_ident_taken _ _ SM) as (r & Hr & _).
    assert (L : (length r < length (rest s))%nat) by (rewrite Hr, app_length; cbn; lia).
    apply wp_de_option with (b := true); [assumption|discriminate| |].
    - intros n L'. apply gd_all. intros l'. apply safe_map_ret. now apply H.
    - rewrite SM. discriminate. }
  apply wp_bind, wp_consume_ident with T; [assumption|intros; apply wp_ret; now apply adv_dok|].
  apply wp_bind, wp_consume_str with T; [assumption|intros; apply wp_ret; now apply adv_dok|].
  intros _.
  assert (FR : forall r k b, rest s = r -> adv T s (moved k s) ->
     wp (float_range_or_value b) (fun _ s' => dok T s s') (fun _ s' => derr T s s') (moved k s)).
  { intros r k b _ A1. eapply wp_conseq; [apply (wp_token T); [apply A1|apply total_float_range]| |]; cbn;
      intros; [eapply dok_trans|eapply dok_derr_trans]; try eassumption; now apply adv_dok. }
  apply wp_bind, wp_consume_ident with T; [assumption|intros; apply wp_bind, wp_ret; eapply FR; eauto|].
  apply wp_bind, wp_consume_ident with T; [assumption|intros; eapply FR; eauto|].
  apply wp_bind, wp_consume_ident with T; [assumption|intros; eapply FR; eauto|].
  apply wp_bind, wp_consume_ident with T; [assumption|intros; apply wp_bind, wp_ret; eapply FR; eauto|].
  apply wp_bind, wp_consume_ident with T; [assumption|intros; eapply FR; eauto|].
  apply wp_bind, wp_consume_ident with T; [assumption|intros; eapply FR; eauto|].
  apply wp_bind. eapply wp_conseq; [apply skip_identifier_total, I| |]; [|cbn; tauto]. cbn.
  intros id s1 (A1 & L1 & N1). destruct id as [id|].
  { assert (L : (length (rest s1) < length (rest s))%nat) by (apply L1; discriminate).
    assert (D1 := adv_dok _ _ _ A1).
    eapply wp_conseq with (Q := fun _ s' => dok T s1 s') (R := fun _ s' => derr T s1 s').
    2:{ cbn. intros. eapply dok_trans; eassumption. }
    2:{ cbn. intros. eapply dok_derr_trans; eassumption. }
    apply wp_step; [apply wp_token; [apply D1|apply total_skip_ws]|]. intros _ s2 D2.
    assert (Y := dok_len _ _ _ D2).
    apply any_struct_safe with (n := length (rest s1)); [apply D2|destruct (nt s2); lia|].
    intros l. now apply H. }
  rewrite (N1 eq_refl) in *. clear s1 A1 L1 N1.
  destruct (rest s) as [|c r] eqn:Hs.
  { apply wp_bind. eapply wp_err; [unfold peek_char_or_eof; now rewrite Hs|]. now apply derr_refl. }
  eapply wp_bind_ok; [unfold peek_char_or_eof; now rewrite Hs|].
  assert (HL : forall l, safe T (at_ (length r) false l) any) by (intros; apply H; cbn; lia).
  destruct (c =? c_lp).
  { apply any_struct_safe with (length r); [assumption|rewrite N, Hs; cbn; lia|exact HL]. }
  destruct (c =? c_lb).
  { apply wp_de_seq with (length r); [assumption|rewrite Hs; cbn; lia|].
    intros _. apply gd_all. intros. now apply any_seq_body_safe. }
  destruct (c =? c_lc).
  { apply wp_de_map with (length r); [assumption|rewrite Hs; cbn; lia|].
    intros _. apply gd_all. intros. apply safe_map_ret, map_all_safe; now apply gd_all. }
  destruct (_ || (c =? c_b)).
  { apply (safe_any_number_or_bytes T (length (rest s)) (nt s) (lim s)); [assumption|].
    unfold at_. intuition. }
  destruct (_ || _).
  { apply wp_token; [assumption|]. apply total_bind; [apply total_parse_string|intros; apply total_ret]. }
  destruct (c =? c_sq).
  { apply wp_token; [assumption|]. apply total_bind; [apply total_parse_char|intros; apply total_ret]. }
  apply wp_fail. now apply derr_refl.
Qed.

Lemma de_any_safe f : forall T n (b : bool) l, (2 * n + (if b then 1 else 0) < f)%nat ->
  safe T (at_ n b l) (de_any f).
Proof.
  induction f as [|f IH]; intros T n b l L; [lia|].
  intros s I (P1 & P2 & P3). cbn [de_any]. apply wp_bind, wp_get. destruct (nt s) eqn:N.
  - assert (b = true) by (destruct b; [reflexivity|now specialize (P2 eq_refl)]). subst b.
    assert (HS : forall l, safe T (at_ n false l) (de_any f)) by (intros; apply IH; lia).
    eapply wp_bind_ok; [reflexivity|].
    destruct (match rest s with [] => false | d :: _ => d =? c_rp end).
    { apply wp_step; [apply (safe_de_unit T (fun _ => True)); auto|].
      intros _ s' D. apply wp_ret, dok_refl, D. }
    apply wp_bind. apply wp_total with T; [apply total_check_struct_type|assumption| |intros; now apply adv_derr].
    intros t s1 A1. assert (D1 := adv_dok _ _ _ A1). assert (Y := dok_len _ _ _ D1).
    assert (N1 : nt s1 = true) by (rewrite <- N; apply A1).
    eapply wp_conseq with (Q := fun _ s' => dok T s1 s') (R := fun _ s' => derr T s1 s').
    2:{ cbn. intros. eapply dok_trans; eassumption. }
    2:{ cbn. intros. eapply dok_derr_trans; eassumption. }
    assert (TUP : wp (de_tuple (l <- seq_all c_rp (de_any f) ;; ret (XSeq l)))
                     (fun _ s' => dok T s1 s') (fun _ s' => derr T s1 s') s1).
    { apply wp_de_tuple with n; [apply D1|rewrite N1; lia|]. intros _. apply gd_all. intros.
      now apply any_seq_body_safe. }
    assert (REST : wp (modify (set_nt false) ;;; any_main (de_any f))
                     (fun _ s' => dok T s1 s') (fun _ s' => derr T s1 s') s1).
    { apply wp_step_set; [apply dok_nt, D1|]. apply any_main_safe; [apply D1|reflexivity|].
      intros n' b' l' L'. apply IH. cbn in L'. destruct b'; lia. }
    destruct t; try exact TUP; try exact REST.
    apply wp_struct_after_name with n; [apply D1|rewrite N1; lia|]. intros _. apply gd_all. intros.
    now apply any_map_body_safe.
  - apply any_main_safe; auto. intros n' b' l' L'. apply IH. destruct b, b'; lia.
Qed.

Lemma safe_any_value T P : safe T P any_value.
Proof.
  intros s I _. unfold any_value. eapply wp_bind_ok; [reflexivity|].
  apply (de_any_safe _ T (length (rest s)) true (lim s)); [lia|assumption|].
  split; [lia|]. split; [discriminate|reflexivity].
Qed.

(** ** Documents *)

Lemma wp_document {A} (o : opts) (m : M A) text :
  (forall s, inv text s -> lim s = o_limit o ->
     wp m (fun _ s' => dok text s s') (fun _ s' => derr text s s') s) ->
  wp (document o m) (fun _ s' => inv text s' /\ rest s' = [] /\ lim s' = o_limit o)
     (fun _ s' => inv text s') (init_state text).
Proof.
  intros H. unfold document. apply wp_bind.
  eapply wp_conseq; [apply (parser_new_total text), inv_init| |]; cbn.
  2:{ intros e s' X'. apply X'. }
  intros _ s1 A1. apply wp_bind, wp_modify.
  set (s2 := set_lim (o_limit o) (set_ext (exts_or (ext s1) (o_exts o)) s1)).
  assert (I2 : inv text s2) by apply A1.
  apply wp_bind. eapply wp_conseq; [apply (H s2); auto| |]; cbn.
  2:{ intros e s' D. apply D. }
  intros v s3 D3. apply wp_bind. unfold de_end. apply wp_bind.
  apply wp_total with text; [apply total_skip_ws|apply D3| |].
  2:{ intros e s4 A4. apply A4. }
  intros _ s4 A4. eapply wp_bind_ok; [reflexivity|].
  destruct (rest s4) eqn:R.
  - apply wp_ret, wp_ret. split; [apply A4|]. split; [assumption|].
    destruct A4 as (_ & _ & _ & _ & L4 & _). destruct D3 as (_ & _ & _ & L3 & _). rewrite L4, L3. reflexivity.
  - apply wp_fail. apply A4.
Qed.

Lemma from_str_any o text : wp (document o any_value) (fun _ s' => inv text s') (fun _ s' => inv text s') (init_state text).
Proof.
  eapply wp_conseq; [apply wp_document|cbn; tauto|cbn; auto].
  intros s I _. now apply (safe_any_value text (fun _ => True)).
Qed.

Lemma safe_de_raw T P : safe T P de_raw.
Proof.
  intros s I _. unfold de_raw. eapply wp_bind_ok; [reflexivity|].
  apply wp_step; [apply wp_token; [assumption|apply total_skip_ws]|]. intros _ s1 D1.
  apply wp_step; [apply (safe_any_value T (fun _ => True)); [apply D1|exact Logic.I]|]. intros _ s2 D2.
  apply wp_step; [apply wp_token; [apply D2|apply total_skip_ws]|]. intros _ s3 D3.
  eapply wp_bind_ok; [reflexivity|]. eapply wp_bind_ok; [reflexivity|].
  match goal with |- wp (if ?b then _ else _) _ _ _ => destruct b end; [apply wp_fail, derr_refl, D3|].
  assert (D : dok T s s3) by eauto using dok_trans.
  apply wp_bind, wp_slice_before.
  { eapply suf_trans; [apply (proj1 (proj2 D))|]. apply I. }
  intros ron _. assert (W := from_str_any opts_default ron).
  Transparent wp. unfold wp in W. Opaque wp. fold (from_str opts_default any_value ron) in W.
  destruct (from_str opts_default any_value ron); try contradiction.
  - apply wp_ret, dok_refl, D3.
  - apply wp_fail, derr_refl, D3.
Qed.

(** ** Typed deserialization *)

Lemma total_range_prologue name fields : total (range_prologue name fields).
Proof.
  unfold range_prologue. apply total_bind; [apply total_src|]. intros r. cbv zeta.
  assert (K : forall f : num -> option (list num), total (e <- any_number ;; ret (f e))).
  { intros f. apply total_bind; [apply total_any_number|intros; apply total_ret]. }
  match goal with |- total (if ?b then _ else _) => destruct b end.
  { apply total_bind; [apply total_any_number|]. intros a.
    apply total_bind; [apply total_consume_str|]. intros i.
    apply total_bind; [destruct i; [apply total_ret|apply total_consume_str]|]. intros d.
    destruct (negb d); [apply total_fail|]. destruct (i && _); [apply total_fail|].
    destruct (negb i && _); [apply total_fail|apply K]. }
  apply total_bind.
  { match goal with |- total (if ?b then _ else _) => destruct b end; [|apply total_ret].
    destruct (num_start r); [apply total_ret|].
    repeat (apply total_bind; [apply total_check_ident|]; intros []; [apply total_ret|]).
    apply total_check_ident. }
  intros [].
  { apply total_bind; [apply total_any_number|]. intros a.
    apply total_bind; [apply total_consume_str|]. intros []; [apply total_fail|].
    apply total_bind; [apply total_consume_str|]. intros []; [apply total_ret|apply total_fail]. }
  match goal with |- total (if ?b then _ else _) => destruct b end.
  { apply total_bind; [apply total_consume_str|]. intros []; [apply total_fail|].
    apply total_bind; [apply total_consume_str|]. intros _. apply K. }
  match goal with |- total (if ?b then _ else _) => destruct b end; [|apply total_ret].
  apply total_bind; [apply total_consume_str|]. intros []; cbn [negb]; [apply K|].
  apply total_bind; [apply total_consume_str|]. intros _. apply total_fail.
Qed.

Lemma struct_loop_safe T n l (value_of : ty -> M val) deny fields k acc (had : bool) s :
  (forall p, In p fields -> gd (fun l => safe T (at_ n false l) (value_of (snd p))) l) ->
  inv T s -> at_ n false l s -> (length (rest s) + 1 <= k)%nat ->
  wp (struct_loop value_of deny fields k acc had) (fun _ s' => dok T s s') (fun _ s' => derr T s s') s.
Proof.
  intros G. revert acc had s. induction k as [|k IH]; intros acc had s I P L; [lia|].
  cbn [struct_loop].
  assert (FK : gd (fun l => safe T (at_ n false l) (field_key deny fields)) l).
  { apply gd_all. intros l'. unfold field_key. apply safe_bind; [apply safe_identifier|].
    intros i. destruct (assoc i fields); [apply safe_ret|]. destruct deny; [apply safe_fail|apply safe_ret]. }
  apply wp_bind. eapply wp_conseq; [apply (next_key_safe T n l c_rp _ had s FK I P)| |auto]. cbn.
  intros [a|] s1 [D1 _]; [|now apply wp_ret].
  assert (P1 := at_dok _ _ _ _ _ _ P D1). assert (Y1 := dok_len _ _ _ D1).
  eapply wp_conseq with (Q := fun _ s' => dok T s1 s') (R := fun _ s' => derr T s1 s').
  2:{ cbn. intros. eapply dok_trans; eassumption. }
  2:{ cbn. intros. eapply dok_derr_trans; eassumption. }
  assert (STEP : forall (m : M val) (k' : val * bool -> M (list (str * val))),
    gd (fun l => safe T (at_ n false l) m) l ->
    (forall p s2, dok T s1 s2 -> (length (rest s2) < length (rest s1))%nat ->
        wp (k' p) (fun _ s' => dok T s2 s') (fun _ s' => derr T s2 s') s2) ->
    wp (p <- next_value m ;; k' p) (fun _ s' => dok T s1 s') (fun _ s' => derr T s1 s') s1).
  { intros m k' Gm K. apply wp_bind.
    eapply wp_conseq; [apply (next_value_safe T n l m s1 Gm); [apply D1|exact P1]| |auto].
    cbn. intros p s2 [D2 L2]. eapply wp_conseq; [apply (K p s2 D2 L2)| |]; cbn; intros;
      [eapply dok_trans|eapply dok_derr_trans]; eassumption. }
  destruct (assoc a fields) as [t|] eqn:AS.
  - destruct (assoc a acc); [apply wp_fail, derr_refl, D1|]. apply STEP.
    + assert (In (a, t) fields) as Hin.
      { clear - AS. induction fields as [|[f u] fs IH]; [discriminate|]. cbn in AS.
        destruct (str_eqb a f) eqn:Q; [|right; auto].
        apply str_eqb_eq in Q as ->. injection AS as ->. now left. }
      apply (G _ Hin).
    + intros p s2 D2 L2. apply IH; [apply D2|eapply at_dok; eassumption|lia].
  - apply (wp_conseq _ (fun _ s' => dok T s1 s') _ (fun _ s' => derr T s1 s')); [|auto|auto].
    assert (STEP' : forall (m : M value) (k' : value * bool -> M (list (str * val))),
      gd (fun l => safe T (at_ n false l) m) l ->
      (forall p s2, dok T s1 s2 -> (length (rest s2) < length (rest s1))%nat ->
          wp (k' p) (fun _ s' => dok T s2 s') (fun _ s' => derr T s2 s') s2) ->
      wp (p <- next_value m ;; k' p) (fun _ s' => dok T s1 s') (fun _ s' => derr T s1 s') s1).
    { intros m k' Gm K. apply wp_bind.
      eapply wp_conseq; [apply (next_value_safe T n l m s1 Gm); [apply D1|exact P1]| |auto].
      cbn. intros p s2 [D2 L2]. eapply wp_conseq; [apply (K p s2 D2 L2)| |]; cbn; intros;
        [eapply dok_trans|eapply dok_derr_trans]; eassumption. }
    apply STEP'; [apply gd_all; intros; apply safe_any_value|].
    intros p s2 D2 L2. apply IH; [apply D2|eapply at_dok; eassumption|lia].
Qed.

Lemma collect_total is_opt fs acc : total (collect is_opt fs acc).
Proof.
  induction fs as [|[f t] fs IH]; cbn [collect]; [apply total_ret|].
  apply total_bind; [|intros v; apply total_bind; [exact IH|intros; apply total_ret]].
  destruct (assoc f acc); [apply total_ret|]. destruct (is_opt t); [apply total_ret|apply total_fail].
Qed.
Lemma struct_body_safe T n l (value_of : ty -> M val) deny fields is_opt :
  (forall p, In p fields -> gd (fun l => safe T (at_ n false l) (value_of (snd p))) l) ->
  safe T (at_ n false l) (struct_body value_of deny fields is_opt).
Proof.
  intros G s I P. unfold struct_body. eapply wp_bind_ok; [reflexivity|]. apply wp_step.
  - eapply struct_loop_safe; [exact G|assumption|assumption|lia].
  - intros acc s1 D1. apply wp_token; [apply D1|apply collect_total].
Qed.

Section Typed.
Variable tenv : nat -> ty.

Section Step.
(** what is known of the recursive calls: [G n b t l] when at most [n]
    characters are left, [newtype_variant] is unset or [b], and the budget is
    [l] *)
Variable G : nat -> bool -> ty -> option nat -> Prop.

Definition tys (n : nat) (ts : list ty) (l : option nat) : Prop :=
  gd (fun l => forall t, In t ts -> gd (G n false t) l) l.
(** after at least one more character *)
Definition inner (n : nat) (P : nat -> Prop) : Prop :=
  match n with O => True | S n' => P n' end.
(** inside parentheses, which a newtype variant may have consumed already *)
Definition inparens (n : nat) (b : bool) (P : nat -> Prop) : Prop :=
  (b = true -> P n) /\ inner n P.

(** every recursive call that can be made for [t] is in [G] *)
Definition step_ok (n : nat) (b : bool) (t : ty) (l : option nat) : Prop :=
  match t with
  | TOption t => gd (G n b t) l /\ forall n', (n' < n)%nat -> gd (G n' true t) l
  | TNewtype _ t => gd (G n false t) l
  | TSeq t => inner n (fun n => tys n [t] l)
  | TMap k v => inner n (fun n => tys n [k; v] l)
  | TTuple ts | TTupleStruct _ ts => inparens n b (fun n => tys n ts l)
  | TStruct _ _ fs => inparens n b (fun n => tys n (map snd fs) l)
  | TEnum _ vs =>
      inner n (fun n => gd (fun l => forall p, In p vs ->
        match snd p with
        | WUnit => True
        | WNew t => gd (G n true t) l
        | WTup ts => tys n ts l
        | WStruct _ fs => tys n (map snd fs) l
        end) l)
  | TRef m => G n b (tenv m) l
  | _ => True
  end.
End Step.

Lemma tuple_body_safe {B} T n l (G : nat -> bool -> ty -> option nat -> Prop) (rec : ty -> M val) ts (g : list val -> B) :
  (forall t l, G n false t l -> safe T (at_ n false l) (rec t)) ->
  (forall t, In t ts -> gd (G n false t) l) ->
  safe T (at_ n false l) (l <- tuple_elems (map rec ts) 0 true ;; ret (g l)).
Proof.
  intros IH H. apply safe_map_ret, tuple_elems_safe. apply Forall_forall. intros m Hm.
  apply in_map_iff in Hm as (t & <- & Ht). eapply gd_mono; [|apply (H t Ht)].
  intros l' F. now apply IH.
Qed.
Lemma struct_tys_safe {B} T n l (G : nat -> bool -> ty -> option nat -> Prop) (rec : ty -> M val) deny fs (g : list (str * val) -> B) :
  (forall t l, G n false t l -> safe T (at_ n false l) (rec t)) ->
  (forall t, In t (map snd fs) -> gd (G n false t) l) ->
  safe T (at_ n false l) (l <- struct_body rec deny fs (is_option tenv) ;; ret (g l)).
Proof.
  intros IH H. apply safe_map_ret, struct_body_safe. intros p Hp.
  eapply gd_mono; [|apply (H (snd p)); now apply in_map]. intros l' F. now apply IH.
Qed.

Lemma assoc_in {A} k (l : list (str * A)) a : assoc k l = Some a -> In (k, a) l.
Proof.
  induction l as [|[f u] fs IH]; [discriminate|]. cbn. destruct (str_eqb k f) eqn:Q; [|auto].
  apply str_eqb_eq in Q as ->. intros [= ->]. now left.
Qed.

Lemma parens_bound T s s' n (b : bool) : (length (rest s) <= n)%nat -> (b = false -> nt s = false) ->
  dok T s s' -> exists n', (length (rest s') <= (if nt s' then n' else S n'))%nat /\
  forall P : nat -> Prop, inparens n b P -> (nt s' = true \/ rest s' <> [] -> P n').
Proof.
  intros L B D. assert (Y := dok_len _ _ _ D). destruct (nt s') eqn:N.
  - exists n. split; [lia|]. intros P [H _] _. apply H. destruct b; [reflexivity|].
    specialize (B eq_refl). destruct D as (_ & _ & _ & _ & D). rewrite (D B) in N. discriminate.
  - exists (Nat.pred n). split; [lia|]. intros P [_ H] [V|V]; [discriminate|].
    destruct n as [|n]; [|exact H]. destruct (rest s'); [congruence|cbn in Y; lia].
Qed.

Lemma de_identifier_eats T s : inv T s ->
  wp de_identifier (fun _ s' => dok T s s' /\ (length (rest s') < length (rest s))%nat)
     (fun _ s' => derr T s s') s.
Proof.
  intros I. unfold de_identifier. apply wp_bind. apply wp_eats with T; [apply identifier_eats|assumption| |].
  - intros k s' A L. apply wp_bind, wp_modify, wp_ret. split; [|exact L].
    eapply dok_trans; [apply adv_dok, A|]. apply dok_last_id, A.
  - intros. now apply adv_derr.
Qed.

#[local] Transparent wp.
Lemma variant_key_safe {W} T n (variants : list (str * W)) l s : inv T s -> at_ n false l s ->
    wp (guard (k <- de_identifier ;;
               match assoc k variants with
               | Some w => ret (k, w)
               | None => fail (ENoSuchEnumVariant k None)
               end))
       (fun kw s' => dok T s s' /\ nt s' = false /\ (length (rest s') < n)%nat /\ lim s' = l /\ In kw variants)
       (fun _ s' => derr T s s') s.
Proof.
  intros I (P1 & P2 & P3). unfold guard, guard_with.
    unfold wp. rewrite P3.
    assert (H : forall s0, inv T s0 -> rest s0 = rest s -> ext s0 = ext s -> nt s0 = nt s ->
      match (k <- de_identifier ;;
               match assoc k variants with
               | Some w => ret (k, w)
               | None => fail (ENoSuchEnumVariant k None)
               end) s0 with
      | Ok kw s' => dok T s0 s' /\ nt s' = false /\ (length (rest s') < n)%nat /\ In kw variants
      | Err _ s' => derr T s0 s'
      | _ => False
      end).
    { intros s0 I0 R0 E0 N0. assert (WI := de_identifier_eats T s0 I0).
      unfold wp in WI. unfold bind.
      destruct (de_identifier s0) as [k s1|e s1| |]; auto. destruct WI as [D L].
      destruct (assoc k variants) eqn:AS; unfold ret, fail; [|now apply dok_derr].
      split; [exact D|]. split; [apply D; rewrite N0; auto|]. split; [rewrite R0 in L; lia|].
      now apply assoc_in. }
    destruct l as [[|l]|].
    - now apply derr_refl.
    - specialize (H (set_lim (Some l) s) I eq_refl eq_refl eq_refl).
      match type of H with match ?x with _ => _ end => destruct x as [kw s1|e s1| |] end; auto.
      destruct H as ((D1 & D2 & D3 & D4 & D5) & HN & HL & HI). cbn in *.
      repeat split; cbn; auto; try apply D1; rewrite D4; auto.
    - specialize (H s I eq_refl eq_refl eq_refl).
      match type of H with match ?x with _ => _ end => destruct x as [kw s1|e s1| |] end; auto.
      destruct H as (D & HN & HL & HI). repeat split; auto; try apply D.
      rewrite <- P3. apply D.
Qed.

#[local] Opaque wp.
Lemma de_step_safe T (G : nat -> bool -> ty -> option nat -> Prop) rec :
  (forall n b t l, G n b t l -> safe T (at_ n b l) (rec t)) ->
  forall n b t l, step_ok G n b t l -> safe T (at_ n b l) (de_step tenv rec t).
Proof.
  intros IH n b t l F.
  assert (TOK : forall A (m : M A) (g : A -> val), total m -> safe T (at_ n b l) (x <- m ;; ret (g x))).
  { intros A m g H. apply safe_total. apply total_bind; [exact H|intros; apply total_ret]. }
  assert (IHn : forall n t l, G n false t l -> safe T (at_ n false l) (rec t)) by auto.
  assert (TY : forall n b t (g : val -> val) l, gd (G n b t) l ->
     gd (fun l => safe T (at_ n b l) (v <- rec t ;; ret (g v))) l).
  { intros n' b' t' g l' GG. eapply gd_mono; [|exact GG]. intros l2 F2. apply safe_map_ret. now apply IH. }
  assert (VAR : forall n name k w l s1, inv T s1 -> at_ n false l s1 ->
    match w with
    | WUnit => True
    | WNew t => gd (G n true t) l
    | WTup ts => tys G n ts l
    | WStruct _ fs => tys G n (map snd fs) l
    end ->
    wp (match w with
        | WUnit => ret (VUnitVariant name k)
        | WNew t =>
            s <- get ;;
            skip_ws ;;;
            b <- consume_char c_lp ;;
            if b then
              skip_ws ;;;
              modify (fun s => set_nt (x_unwrap_variant_newtypes (ext s)) s) ;;;
              v <- guard (map_err (struct_error_name (last_id s)) (rec t)) ;;
              modify (set_nt false) ;;;
              comma ;;;
              c <- consume_char c_rp ;;
              if c then ret (VNewVariant name k v) else fail EExpectedStructLikeEnd
            else fail EExpectedStructLike
        | WTup ts =>
            skip_ws ;;;
            de_tuple (l <- tuple_elems (map rec ts) 0 true ;; ret (VTupVariant name k l))
        | WStruct deny fields =>
            s <- get ;;
            skip_ws ;;;
            map_err (struct_error_name (last_id s))
              (struct_after_name []
                 (l <- struct_body rec deny fields (is_option tenv) ;; ret (VStructVariant name k l)))
        end) (fun _ s' => dok T s1 s') (fun _ s' => derr T s1 s') s1).
  { clear F TOK n b l t. intros n name k w l' s1 I1 P1 H.
    destruct w as [|t|ts|deny fs].
    + apply wp_ret. now apply dok_refl.
    + apply wp_bind, wp_get.
      apply wp_step; [apply wp_token; [assumption|apply total_skip_ws]|]. intros _ s2 D2.
      apply wp_step; [apply wp_token; [apply D2|apply total_consume_char]|].
      intros [] s3 D3; [|apply wp_fail, derr_refl, D3].
      apply wp_step; [apply wp_token; [apply D3|apply total_skip_ws]|]. intros _ s4 D4.
      assert (D : dok T s1 s4) by eauto using dok_trans.
      destruct (at_dok _ _ _ _ _ _ P1 D) as (Q1 & Q2 & Q3). specialize (Q2 eq_refl).
      apply wp_bind, wp_modify. set (s5 := set_nt (x_unwrap_variant_newtypes (ext s4)) s4).
      assert (I5 : inv T s5) by apply D4.
      apply wp_bind. eapply wp_conseq.
      { apply (wp_guard_with false T s5 n true); [exact I5|exact Q1|discriminate|].
        replace (lim s5) with l' by (symmetry; exact Q3).
        eapply gd_mono; [|exact H]. intros l2 F2. apply safe_map_err. now apply IH. }
      * cbn. intros v s6 D6. apply wp_bind, wp_modify.
        assert (D7 : dok T s4 (set_nt false s6)).
        { destruct D6 as (V1 & V2 & V3 & V4 & V5). unfold dok. cbn in *. auto. }
        eapply wp_conseq; [apply comma_close_safe, D7| |]; cbn; intros;
          [eapply dok_trans|eapply dok_derr_trans]; eassumption.
      * cbn. intros e s6 D6. exact D6.
    + apply wp_step; [apply wp_token; [assumption|apply total_skip_ws]|]. intros _ s2 D2.
      destruct (at_dok _ _ _ _ _ _ P1 D2) as (Q1 & Q2 & Q3).
      apply wp_de_tuple with n; [apply D2|destruct (nt s2); lia|].
      intros _. rewrite Q3. eapply gd_mono; [|exact H]. intros l2 H2. apply (tuple_body_safe T n l2 G); auto.
    + apply wp_bind, wp_get.
      apply wp_step; [apply wp_token; [assumption|apply total_skip_ws]|]. intros _ s2 D2.
      destruct (at_dok _ _ _ _ _ _ P1 D2) as (Q1 & Q2 & Q3).
      apply wp_map_err. apply wp_struct_after_name with n; [apply D2|destruct (nt s2); lia|].
      intros _. rewrite Q3. eapply gd_mono; [|exact H]. intros l2 H2. apply (struct_tys_safe T n l2 G); auto. }
  destruct t; cbn [de_step]; cbn [step_ok] in F.
  - apply TOK, total_parse_bool.
  - destruct (int_supported k); [|apply safe_fail].
    apply (TOK _ (integer (Some k)) (fun p => VInt k (snd p))), total_integer.
  - apply (TOK _ (float (Some k)) (fun p => VFloat k (snd p))), total_float.
  - apply TOK, total_parse_char.
  - apply TOK, total_parse_string.
  - apply safe_map_ret, safe_de_bytes.
  - apply (safe_bind T n b l); [apply safe_de_unit|]. intros _. apply safe_ret.
  - apply (safe_bind T n b l); [apply safe_de_unit_struct|]. intros _. apply safe_ret.
  - (* Option *) intros s I P. destruct P as (P1 & P2 & P3). destruct F as [F1 F2].
    apply wp_de_option with (b := b); [assumption|assumption| |].
    + intros n' L'. rewrite P3. apply TY, F2. lia.
    + intros _. rewrite P3. eapply gd_mono; [|apply (TY n b t VSome l F1)].
      intros l'. apply safe_weaken. intros s'. now apply at_weaken.
  - (* newtype *) intros s I (P1 & P2 & P3). apply wp_de_newtype with n; [assumption|assumption|].
    rewrite P3. now apply TY.
  - (* seq *) intros s I (P1 & P2 & P3). apply wp_de_seq with (Nat.pred n); [assumption|lia|].
    intros NE. rewrite P3. destruct n as [|n]; [destruct (rest s); [congruence|cbn in P1; lia]|].
    eapply gd_mono; [|exact F]. intros l' H. apply safe_map_ret, seq_all_safe.
    eapply gd_mono; [|apply (H t); now left]. intros l2 F2. now apply IH.
  - (* tuple *) intros s I (P1 & P2 & P3).
    destruct (parens_bound T s s n b P1 P2 (dok_refl _ _ I)) as (n' & L' & K').
    apply wp_de_tuple with n'; [assumption|exact L'|].
    intros V. rewrite P3. eapply gd_mono; [|exact (K' _ F V)]. intros l' H. apply (tuple_body_safe T n' l' G); auto.
  - (* tuple struct *) intros s I P. apply wp_bind, wp_get. apply wp_step.
    { destruct (nt s); apply wp_token; auto; [apply total_ret|apply total_consume_struct_name]. }
    intros _ s1 D1. apply wp_map_err. destruct P as (P1 & P2 & P3).
    destruct (parens_bound T s s1 n b P1 P2 D1) as (n' & L' & K').
    apply wp_de_tuple with n'; [apply D1|exact L'|].
    intros V. replace (lim s1) with l by (rewrite <- P3; symmetry; apply D1).
    eapply gd_mono; [|exact (K' _ F V)]. intros l' H. apply (tuple_body_safe T n' l' G); auto.
  - (* map *) intros s I (P1 & P2 & P3). apply wp_de_map with (Nat.pred n); [assumption|lia|].
    intros NE. rewrite P3. destruct n as [|n]; [destruct (rest s); [congruence|cbn in P1; lia]|].
    eapply gd_mono; [|exact F]. intros l' H. apply safe_map_ret, map_all_safe.
    + eapply gd_mono; [|apply (H t1); now left]. intros l2 F2. now apply IH.
    + eapply gd_mono; [|apply (H t2); right; now left]. intros l2 F2. now apply IH.
  - (* struct *) intros s I P. apply wp_step; [apply wp_token; [assumption|apply total_range_prologue]|].
    intros [ns|] s1 D1.
    { destruct (range_fields _ ns); [apply wp_ret, dok_refl, D1|apply wp_fail, derr_refl, D1]. }
    apply wp_bind, wp_get. apply wp_step.
    { destruct (nt s1); apply wp_token; try apply D1; [apply total_ret|apply total_consume_struct_name]. }
    intros _ s2 D2. apply wp_step; [apply wp_token; [apply D2|apply total_skip_ws]|].
    intros _ s3 D3. assert (D : dok T s s3) by eauto using dok_trans.
    destruct P as (P1 & P2 & P3).
    destruct (parens_bound T s s3 n b P1 P2 D) as (n' & L' & K').
    apply wp_struct_after_name with n'; [apply D3|exact L'|].
    intros V. replace (lim s3) with l by (rewrite <- P3; symmetry; apply D).
    eapply gd_mono; [|exact (K' _ F V)]. intros l' H. apply (struct_tys_safe T n' l' G); auto.
  - (* enum *) intros s I P. apply wp_step_set; [now apply dok_nt|]. apply wp_map_err.
    assert (P0 := at_dok _ _ _ _ _ _ P (dok_nt _ _ I)). set (s0 := set_nt false s) in *.
    destruct P0 as (P1 & P2 & P3).
    apply wp_guard_with with n false; [exact I|exact P1|reflexivity|].
    rewrite P3. clear s I P s0 P1 P2 P3.
    destruct l as [[|l]|]; cbn [gd]; [exact Logic.I| |].
    all: apply safe_bind; [apply safe_total, total_skip_ws|]; intros _ s I P.
    (* the variant name *)
    all: apply wp_bind; eapply wp_conseq; [apply (variant_key_safe T n variants _ s I P)| |auto]; cbn; intros [k w] s1 (D1 & N1 & L1 & V1 & IN1).
    all: destruct n as [|n]; [lia|]; cbn [inner gd] in F.
    all: eapply wp_conseq with (Q := fun _ s' => dok T s1 s') (R := fun _ s' => derr T s1 s');
      [ |cbn; intros; eapply dok_trans; eassumption|cbn; intros; eapply dok_derr_trans; eassumption].
    all: eapply (VAR n name k w); [apply D1|split; [lia|split; [auto|exact V1]]|exact (F _ IN1)].
  - apply (safe_map_ret T n b l any_value (fun x => embed (norm x))). apply safe_any_value.
  - apply (safe_bind T n b l); [apply safe_any_value|]. intros _. apply safe_ret.
  - apply safe_map_ret, safe_de_raw.
  - now apply IH.
Qed.

(** ** Fuel *)

(** the fuel [f] reaches every type nested in [t] that a budget of [l] guards
    allows to be reached *)
Fixpoint fuel_ok (f : nat) (t : ty) (l : option nat) : Prop :=
  match f with
  | O => False
  | S f =>
      let tys ts := gd (fun l => forall t, In t ts -> gd (fuel_ok f t) l) in
      match t with
      | TOption t | TNewtype _ t => gd (fuel_ok f t) l
      | TSeq t => tys [t] l
      | TMap k v => tys [k; v] l
      | TTuple ts | TTupleStruct _ ts => tys ts l
      | TStruct _ _ fs => tys (map snd fs) l
      | TEnum _ vs =>
          gd (fun l => forall p, In p vs ->
            match snd p with
            | WUnit => True
            | WNew t => gd (fuel_ok f t) l
            | WTup ts => tys ts l
            | WStruct _ fs => tys (map snd fs) l
            end) l
      | TRef n => fuel_ok f (tenv n) l
      | _ => True
      end
  end.
Lemma fuel_ok_step f n b t l : fuel_ok (S f) t l -> step_ok (fun _ _ => fuel_ok f) n b t l.
Proof.
  destruct t; cbn [fuel_ok step_ok]; cbv zeta; intros H; auto; destruct n; cbn [inner]; auto;
    unfold inparens; cbn [inner]; auto.
Qed.
Lemma de_ty_safe T f : forall t l n b, fuel_ok f t l -> safe T (at_ n b l) (de_ty tenv f t).
Proof.
  induction f as [|f IH]; intros t l n b F; [destruct F|]. cbn [de_ty].
  apply (de_step_safe T (fun _ _ => fuel_ok f)); [auto|]. now apply fuel_ok_step.
Qed.
End Typed.

End WithEnv.
