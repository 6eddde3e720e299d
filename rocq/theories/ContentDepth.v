(** What the recursion limit bounds when a value is read into serde's buffer. *)
From Coq Require Import String Ascii NArith ZArith Lia Bool List.
From Verif Require Import Base Facts Value Data Parse De Span Wp EnvOk LexSafe DeSafe Limit IntoRust Content TypedRead.
Import ListNotations.
Open Scope N_scope.
Open Scope list_scope.
Open Scope m_scope.

(** the nesting of a value, not counting what may be a variant or a range *)
Definition max_of {A} (f : A -> nat) : list A -> nat := fix go l := match l with [] => O | a :: l' => Nat.max (f a) (go l') end.
Fixpoint counted (x : value) : nat :=
  match x with
  | XSome x => S (counted x)
  | XSeq l => S (match l with [] => O | _ => S (max_of counted l) end)
  | XMap [(XStr _, x)] => counted x
  | XMap [(XStr _, XNum _); (XStr _, XNum _)] => O
  | XMap es => S (match es with [] => O | _ => S (max_of (fun kv => Nat.max (counted (fst kv)) (counted (snd kv))) es) end)
  | _ => O
  end.

Section WithEnv.
Context {E : Env}.

(** whatever is returned satisfies [P], and the budget is what it was *)
Definition post {A} (m : M A) (P : option nat -> A -> Prop) : Prop :=
  forall s a s', m s = Ok a s' -> lim s' = lim s /\ P (lim s) a.
Lemma post_blind {A} (m : M A) : blind m -> post m (fun _ _ => True).
Proof.
  intros H s a s' Q. specialize (H (lim s) s). rewrite set_lim_id, Q in H. cbn in H.
  apply (f_equal (fun o => match o with Ok _ x => x | _ => s' end)) in H. apply set_lim_same in H. auto.
Qed.
Lemma post_weaken {A} (m : M A) (P Q : option nat -> A -> Prop) : post m P -> (forall l a, P l a -> Q l a) -> post m Q.
Proof. intros H W s a s' R. destruct (H s a s' R). auto. Qed.
Lemma post_bind {A B} (m : M A) (k : A -> M B) (P : option nat -> A -> Prop) (Q : option nat -> B -> Prop) : post m P -> (forall a, post (k a) (fun l b => P l a -> Q l b)) -> post (bind m k) Q.
Proof.
  intros H K s b s' R. unfold bind in R. destruct (m s) as [a s1| | |] eqn:R1; try discriminate.
  destruct (H s a s1 R1) as [L1 P1]. destruct (K a s1 b s' R) as [L2 P2]. rewrite L1 in *. auto.
Qed.
Lemma post_then {A B} (m : M A) (k : A -> M B) Q : post m (fun _ _ => True) -> (forall a, post (k a) Q) -> post (bind m k) Q.
Proof. intros H K. apply post_bind with (P := fun _ _ => True); [exact H|]. intros a. eapply post_weaken; [apply K|auto]. Qed.
Lemma post_ret {A} (a : A) (P : option nat -> A -> Prop) : (forall l, P l a) -> post (ret a) P.
Proof. intros H s a' s' [= <- <-]. auto. Qed.
Lemma post_ret' {A} (a : A) (P Q : option nat -> A -> Prop) : (forall l, P l a -> Q l a) -> post (ret a) (fun l b => P l b -> Q l b).
Proof. intros H. now apply post_ret. Qed.
Lemma post_fail {A} e (P : option nat -> A -> Prop) : post (fail e) P.
Proof. intros s a s' R. discriminate R. Qed.
Lemma post_oof {A} (P : option nat -> A -> Prop) : post oof P.
Proof. intros s a s' R. discriminate R. Qed.
Lemma post_get {B} (k : st -> M B) Q : (forall s, post (k s) Q) -> post (bind get k) Q.
Proof. intros H s b s' R. exact (H s s b s' R). Qed.
Definition inner (P : option nat -> Prop) (l : option nat) : Prop := match l with None => P None | Some O => False | Some (S k) => P (Some k) end.
Lemma post_guard {A} r (m : M A) P : post m P -> post (guard_with r m) (fun l a => inner (fun l => P l a) l).
Proof.
  intros H s a s' R. unfold guard_with in R. destruct (lim s) as [[|l]|] eqn:L; [discriminate| |].
  - destruct (m (set_lim (Some l) s)) as [b s1| | |] eqn:R1; try discriminate. injection R as <- <-.
    destruct (H _ _ _ R1) as [L1 P1]. cbn [lim set_lim] in *. rewrite L1. auto.
  - destruct (H _ _ _ R) as [L1 P1]. rewrite L in *. auto.
Qed.
Lemma post_map_err {A} f (m : M A) P : post m P -> post (map_err f m) P.
Proof. intros H s a s' R. unfold map_err, try in R. destruct (m s) as [b s1| | |] eqn:R1; try discriminate. injection R as <- <-. eauto. Qed.
Lemma post_modify f : (forall s, lim (f s) = lim s) -> post (modify f) (fun _ _ => True).
Proof. intros H s a s' [= <- <-]. auto. Qed.

(** ** Elements and brackets *)
Lemma room_inner n l : inner (room n) l -> room (S n) l.
Proof. destruct l as [[|k]|]; cbn; auto; lia. Qed.
Lemma room_max a b l : room a l -> room b l -> room (Nat.max a b) l.
Proof. destruct l; cbn; auto; lia. Qed.
Section Lists.
Context {A B : Type} (f : A -> nat) (g : B -> nat).
Definition ldepth (l : list A) : nat := match l with [] => O | _ => S (max_of f l) end.
Definition edepth (l : list (A * B)) : nat := match l with [] => O | _ => S (max_of (fun kv => Nat.max (f (fst kv)) (g (snd kv))) l) end.
Lemma ldepth_cons a l : ldepth (a :: l) = Nat.max (S (f a)) (ldepth l).
Proof. unfold ldepth. cbn [max_of]. destruct l; cbn [max_of]; lia. Qed.
Lemma edepth_cons a b l : edepth ((a, b) :: l) = Nat.max (Nat.max (S (f a)) (S (g b))) (edepth l).
Proof. unfold edepth. cbn [max_of fst snd]. destruct l; cbn [max_of]; lia. Qed.
Lemma post_has term h : post (has_element term h) (fun _ _ => True).
Proof.
  unfold has_element. apply post_then; [apply post_blind, blind_skip_ws|]. intros _. apply post_then; [apply post_blind, blind_check_char|]. intros t.
  destruct h; [now apply post_ret|]. destruct t; [now apply post_ret|apply post_fail].
Qed.
Lemma post_seq_loop term (m : M A) n : post m (fun l a => room (f a) l) -> forall h, post (seq_loop n term m h) (fun l x => room (ldepth x) l).
Proof.
  intros H. induction n as [|n IH]; intros h; cbn [seq_loop]; [apply post_oof|].
  apply post_bind with (P := fun l p => match fst p with None => True | Some a => room (S (f a)) l end).
  - unfold next_element. apply post_then; [apply post_has|]. intros [|]; [|now apply post_ret].
    apply post_bind with (P := fun l a => room (S (f a)) l).
    + eapply post_weaken; [apply post_guard, H|]. cbn beta. intros l a. apply room_inner.
    + intros a. apply post_then; [apply post_blind, blind_comma|]. intros c. now apply post_ret.
  - intros [[a|] c]; cbn [fst]; [|apply post_ret; intros l _; destruct l; cbn; lia || auto].
    apply post_bind with (P := fun l x => room (ldepth x) l); [apply IH|]. intros x. apply post_ret. intros l H1 H2. rewrite ldepth_cons. now apply room_max.
Qed.
Lemma post_seq_all term (m : M A) : post m (fun l a => room (f a) l) -> post (seq_all term m) (fun l x => room (ldepth x) l).
Proof. intros H. unfold seq_all. apply post_then; [apply post_blind, blind_src|]. intros r. now apply post_seq_loop. Qed.
Lemma post_map_loop term (k : M A) (v : M B) n : post k (fun l a => room (f a) l) -> post v (fun l a => room (g a) l) ->
  forall h, post (map_loop n term k v h) (fun l x => room (edepth x) l).
Proof.
  intros HK HV. induction n as [|n IH]; intros h; cbn [map_loop]; [apply post_oof|].
  apply post_bind with (P := fun l p => match p with None => True | Some a => room (S (f a)) l end).
  - unfold next_key. apply post_then; [apply post_has|]. intros [|]; [|now apply post_ret].
    apply post_bind with (P := fun l a => room (S (f a)) l).
    + eapply post_weaken; [apply post_guard, HK|]. cbn beta. intros l a. apply room_inner.
    + intros a. now apply post_ret.
  - intros [a|]; [|apply post_ret; intros l _; destruct l; cbn; lia || auto].
    apply post_bind with (P := fun l p => room (S (g (fst p))) l).
    + unfold next_value. apply post_then; [apply post_blind, blind_skip_ws|]. intros _. apply post_then; [apply post_blind, blind_consume_char|]. intros [|]; [|apply post_fail].
      apply post_then; [apply post_blind, blind_skip_ws|]. intros _.
      apply post_bind with (P := fun l a => room (S (g a)) l); [eapply post_weaken; [apply post_guard, HV|]; cbn beta; intros l b; apply room_inner|].
      intros b. apply post_then; [apply post_blind, blind_comma|]. intros c. now apply post_ret.
    + intros [b c]. cbn [fst snd]. apply post_bind with (P := fun l x => room (edepth x) l); [apply IH|].
      intros x. apply post_ret. intros l H1 H2 H3. rewrite edepth_cons. auto using room_max.
Qed.
Lemma post_map_all term (k : M A) (v : M B) : post k (fun l a => room (f a) l) -> post v (fun l a => room (g a) l) ->
  post (map_all term k v) (fun l x => room (edepth x) l).
Proof. intros HK HV. unfold map_all. apply post_then; [apply post_blind, blind_src|]. intros r. now apply post_map_loop. Qed.
End Lists.
Section Brackets.
Context {A : Type} (n : A -> nat) (m : M A).
Hypothesis H : post m (fun l a => room (n a) l).
Lemma guarded_room r : post (guard_with r m) (fun l a => room (S (n a)) l).
Proof. eapply post_weaken; [apply post_guard, H|]. cbn beta. intros l b. apply room_inner. Qed.
Lemma post_de_seq : post (de_seq m) (fun l a => room (S (n a)) l).
Proof.
  unfold de_seq. apply post_then; [now apply post_modify|]. intros _. apply post_then; [apply post_blind, blind_consume_char|]. intros [|]; [|apply post_fail].
  apply post_bind with (P := fun l a => room (S (n a)) l); [apply guarded_room|]. intros a.
  apply post_then; [apply post_blind, blind_skip_ws|]. intros _. apply post_then; [apply post_blind, blind_consume_char|]. intros [|]; [now apply post_ret|apply post_fail].
Qed.
Lemma post_de_map : post (de_map m) (fun l a => room (S (n a)) l).
Proof.
  unfold de_map. apply post_then; [now apply post_modify|]. intros _. apply post_then; [apply post_blind, blind_consume_char|]. intros [|]; [|apply post_fail].
  apply post_bind with (P := fun l a => room (S (n a)) l); [apply guarded_room|]. intros a.
  apply post_then; [apply post_blind, blind_skip_ws|]. intros _. apply post_then; [apply post_blind, blind_consume_char|]. intros [|]; [now apply post_ret|apply post_fail].
Qed.
Lemma post_opt (b : bool) c : post (if b then ret true else consume_char c) (fun _ _ => True).
Proof. destruct b; [now apply post_ret|apply post_blind, blind_consume_char]. Qed.
Lemma post_de_tuple : post (de_tuple m) (fun l a => room (S (n a)) l).
Proof.
  unfold de_tuple. apply post_get. intros s. apply post_then; [apply post_opt|]. intros [|]; [|apply post_fail].
  apply post_then; [now apply post_modify|]. intros _.
  apply post_bind with (P := fun l a => room (S (n a)) l); [apply guarded_room|]. intros a.
  apply post_then; [apply post_blind, blind_skip_ws|]. intros _. apply post_then; [apply post_opt|]. intros [|]; [now apply post_ret|apply post_fail].
Qed.
End Brackets.
Lemma post_struct {A} (n : A -> nat) name (m : M A) : post m (fun l a => room (n a) l) -> post (struct_after_name name m) (fun l a => room (S (n a)) l).
Proof.
  intros H. unfold struct_after_name. apply post_get. intros s. apply post_then; [apply post_opt|]. intros [|]; [|destruct name; apply post_fail].
  apply post_then; [now apply post_modify|]. intros _.
  apply post_bind with (P := fun l a => room (S (n a)) l); [apply guarded_room, post_map_err, H|]. intros a.
  apply post_then; [apply post_blind, blind_skip_ws|]. intros _. apply post_then; [apply post_opt|]. intros [|]; [now apply post_ret|apply post_fail].
Qed.
Lemma post_option {A} (n : A -> nat) none (m : M A) : post m (fun l a => room (n a) l) -> post (de_option none m) (fun l a => a = none \/ room (S (n a)) l).
Proof.
  intros H. unfold de_option. apply post_then; [apply post_blind, blind_consume_ident|]. intros [|]; [apply post_ret; auto|].
  apply post_then; [apply post_blind, blind_consume_ident|]. intros sm.
  apply post_then; [destruct sm; [apply post_then; [apply post_blind, blind_skip_ws|intros _; apply post_blind, blind_consume_char]|now apply post_ret]|]. intros [|].
  - apply post_then; [apply post_blind, blind_skip_ws|]. intros _. apply post_then; [now apply post_modify|]. intros _.
    apply post_bind with (P := fun l a => room (S (n a)) l); [now apply guarded_room|]. intros a.
    apply post_then; [now apply post_modify|]. intros _. apply post_then; [apply post_blind, blind_comma|]. intros _.
    apply post_then; [apply post_blind, blind_consume_char|]. intros [|]; [apply post_ret; auto|apply post_fail].
  - apply post_get. intros s. destruct (x_implicit_some (ext s)); [|apply post_fail]. eapply post_weaken; [apply (guarded_room n m H true)|]. auto.
Qed.

(** ** Values *)
Definition fits (l : option nat) (x : value) : Prop := room (counted x) l.
Lemma fits_none x : counted x = O -> forall l, fits l x.
Proof. intros H [l|]; unfold fits; [rewrite H; cbn; lia|exact Logic.I]. Qed.
Lemma seq_counted l : counted (XSeq l) = S (ldepth counted l).
Proof. reflexivity. Qed.
Lemma map_counted es : (counted (XMap es) <= S (edepth counted counted es))%nat.
Proof.
  destruct es as [|[k x] es]; [apply Nat.le_refl|]. destruct k, es as [|[k' x'] es]; try apply Nat.le_refl.
  - unfold edepth. cbn [max_of fst snd counted]. destruct x; lia.
  - destruct x, k', x', es; try apply Nat.le_refl; cbn; lia.
Qed.
Lemma room_map l es : room (S (edepth counted counted es)) l -> fits l (XMap es).
Proof. apply room_le, map_counted. Qed.
Lemma post_float_range n : post (float_range_or_value n) fits.
Proof.
  unfold float_range_or_value.
  assert (N : forall es, counted (range_entries es) = O -> post (ret (range_entries es)) fits) by (intros es H; apply post_ret; now apply fits_none).
  apply post_then; [apply post_blind, blind_consume_str|]. intros [|].
  - apply post_then; [apply post_blind, blind_any_number|]. intros e. now apply N.
  - apply post_then; [apply post_blind, blind_consume_str|]. intros [|]; [|apply post_ret; now apply fits_none].
    apply post_then; [apply post_blind, blind_src|]. intros r. destruct (num_start r).
    + apply post_then; [apply post_blind, blind_any_number|]. intros e. now apply N.
    + now apply N.
Qed.
Lemma post_number_or_bytes : post any_number_or_bytes fits.
Proof.
  unfold any_number_or_bytes. apply post_then; [apply post_blind, blind_src|]. intros r. destruct (_ && _).
  - apply post_then; [|intros b; apply post_ret; now apply fits_none].
    unfold de_bytes. apply post_then; [apply post_blind, blind_check_char|]. intros [|]; [|apply post_blind, blind_byte_string].
    apply post_then; [|intros l; now apply post_ret].
    eapply post_weaken; [apply (post_de_seq (ldepth (fun _ => O)))|auto]. apply (post_seq_all (fun _ => O)).
    apply post_then; [apply post_blind, blind_integer|]. intros p. apply post_ret. intros [l|]; cbn; lia || auto.
  - assert (N : forall es, counted (range_entries es) = O -> post (ret (range_entries es)) fits) by (intros es H; apply post_ret; now apply fits_none).
    apply post_then; [apply post_blind, blind_check_str|]. intros [|].
    { apply post_then; [apply post_blind, blind_consume_str|]. intros _. apply post_then; [apply post_blind, blind_any_number|]. intros e. now apply N. }
    apply post_then; [apply post_blind, blind_check_str|]. intros [|].
    + apply post_then; [apply post_blind, blind_of_slice|]. intros after. destruct (match after with [] => false | c :: _ => is_number_start c r end).
      * apply post_then; [apply post_blind, blind_consume_str|]. intros _. apply post_then; [apply post_blind, blind_any_number|]. intros e. now apply N.
      * apply post_then; [apply post_blind, blind_consume_str|]. intros _. apply post_ret. now apply fits_none.
    + apply post_then; [apply post_blind, blind_any_number|]. intros n. apply post_float_range.
Qed.
Section Con.
Variable con : bool -> M value.
Hypothesis H : forall b, post (con b) fits.
Definition content_of (x : value) : nat :=
  match x with XSeq l => ldepth counted l | XMap es => edepth counted counted es | _ => counted x end.
Lemma fits_content l x : room (S (content_of x)) l -> fits l x.
Proof. apply room_le. destruct x; cbn [content_of]; try apply map_counted; rewrite ?seq_counted; lia. Qed.
Lemma post_list term : post (l <- seq_all term (con false) ;; ret (XSeq l)) (fun l x => room (content_of x) l).
Proof. eapply post_bind; [apply (post_seq_all counted); apply H|]. intros xs. now apply post_ret. Qed.
Lemma post_key : post (k <- de_identifier ;; ret (XStr k)) fits.
Proof. apply post_then; [unfold de_identifier; apply post_then; [apply post_blind, blind_identifier|]; intros k; apply post_then; [now apply post_modify|]; intros _; now apply post_ret|]. intros k. apply post_ret. now apply fits_none. Qed.
Lemma post_entries term k : post k fits -> post (l <- map_all term k (con false) ;; ret (XMap l)) (fun l x => room (content_of x) l).
Proof. intros HK. eapply post_bind; [apply (post_map_all counted counted); [exact HK|apply H]|]. intros xs. now apply post_ret. Qed.
Lemma post_tuple : post (de_tuple (l <- seq_all c_rp (con false) ;; ret (XSeq l))) fits.
Proof. eapply post_weaken; [apply (post_de_tuple content_of), post_list|]. intros l x. apply fits_content. Qed.
Lemma post_named name : post (struct_after_name name (l <- map_all c_rp (k <- de_identifier ;; ret (XStr k)) (con false) ;; ret (XMap l))) fits.
Proof. eapply post_weaken; [apply (post_struct content_of), post_entries, post_key|]. intros l x. apply fits_content. Qed.
Lemma post_content_struct newtype ident : post (content_struct con newtype ident) fits.
Proof.
  unfold content_struct. apply post_then; [apply post_blind, blind_struct_type|]. intros t.
  assert (V : forall id, post (skip_ws ;;; v <- con true ;; ret (XMap [(XStr id, v)])) fits).
  { intros id. apply post_then; [apply post_blind, blind_skip_ws|]. intros _. apply post_bind with (P := fits); [apply H|]. intros v. apply post_ret. intros l F. destruct v; exact F. }
  destruct t, ident as [id|]; try apply V; try apply post_tuple; try (apply post_ret; now apply fits_none).
  - destruct newtype; [|apply post_tuple].
    apply post_then; [apply post_blind, blind_consume_char|]. intros _. apply post_then; [apply post_blind, blind_skip_ws|]. intros _.
    intros s a s' R. unfold try in R. destruct (con false s) as [v s1|e s1| |] eqn:R1; try discriminate.
    + destruct (H false s v s1 R1) as [L1 F1].
      assert (K : post (skip_ws ;;; consume_char c_rp ;;; ret v) (fun _ x => x = v)).
      { apply post_then; [apply post_blind, blind_skip_ws|]. intros _. apply post_then; [apply post_blind, blind_consume_char|]. intros _. now apply post_ret. }
      destruct (K _ _ _ R) as [L2 ->]. rewrite L2, L1. auto.
    + exfalso. unfold bind in R. destruct (skip_ws s1) as [u s2| | |]; try discriminate. destruct (consume_char c_rp s2); discriminate.
  - apply post_named.
Qed.
Lemma post_content_tree newtype : post (content_tree con newtype) fits.
Proof.
  unfold content_tree.
  assert (W : forall b (x : value) (m : M value), counted x = O -> post m fits -> post (if b : bool then ret x else m) fits).
  { intros [|] x m Z K; [apply post_ret; now apply fits_none|exact K]. }
  assert (FR : forall n (b : bool) m, post m fits -> post (if b then float_range_or_value n else m) fits).
  { intros n [|] m K; [apply post_float_range|exact K]. }
  assert (TW : forall (b : bool) w, post (if b then ret true else consume_ident w) (fun _ _ => True)).
  { intros [|] w; [now apply post_ret|apply post_blind, blind_consume_ident]. }
  apply post_then; [apply post_blind, blind_consume_ident|]. intros b1. apply W; [reflexivity|].
  apply post_then; [apply post_blind, blind_consume_ident|]. intros b2. apply W; [reflexivity|].
  apply post_then; [apply post_blind, blind_check_ident|]. intros [|].
  { eapply post_weaken; [apply (post_option (fun x => Nat.pred (counted x)))|].
    - apply post_bind with (P := fits); [apply H|]. intros v. now apply post_ret.
    - intros l x [->|R]; [now apply fits_none|]. eapply room_le; [|exact R]. lia. }
  apply post_then; [apply post_blind, blind_consume_ident|]. intros b3. apply W; [reflexivity|].
  apply post_then; [apply post_blind, blind_consume_str|]. intros b4. apply W; [reflexivity|].
  apply post_then; [apply post_blind, blind_consume_ident|]. intros b5. apply post_then; [apply TW|]. intros b6. apply FR.
  apply post_then; [apply post_blind, blind_consume_ident|]. intros b7. apply FR.
  apply post_then; [apply post_blind, blind_consume_ident|]. intros b8. apply post_then; [apply TW|]. intros b9. apply FR.
  apply post_then; [apply post_blind, blind_consume_ident|]. intros b10. apply FR.
  apply post_then; [apply post_blind, blind_skip_identifier|]. intros [id|].
  { apply post_then; [apply post_blind, blind_skip_ws|]. intros _. apply post_content_struct. }
  apply post_then; [apply post_blind, blind_peek_eof|]. intros c.
  destruct (c =? c_lp); [apply post_content_struct|].
  destruct (c =? c_lb).
  { eapply post_weaken; [apply (post_de_seq content_of), post_list|]. intros l x. apply fits_content. }
  destruct (c =? c_lc).
  { eapply post_weaken; [apply (post_de_map content_of), post_entries, H|]. intros l x. apply fits_content. }
  destruct (_ || _); [apply post_number_or_bytes|].
  destruct (_ || _); [apply post_then; [apply post_blind, blind_string|]; intros s; apply post_ret; now apply fits_none|].
  destruct (c =? c_sq); [apply post_then; [apply post_blind, blind_char|]; intros x; apply post_ret; now apply fits_none|apply post_fail].
Qed.
Lemma post_content_main newtype : post (content_main con newtype) fits.
Proof.
  unfold content_main. apply post_bind with (P := fits); [apply post_content_tree|]. intros x. destruct (wide x); [apply post_fail|]. now apply post_ret.
Qed.
End Con.
Lemma post_content f : forall b, post (de_content f b) fits.
Proof.
  induction f as [|f IH]; intros b; cbn [de_content]; [apply post_oof|]. apply post_get. intros s.
  destruct (nt s); [|now apply post_content_main]. apply post_then; [apply post_blind, blind_check_char|]. intros [|].
  - apply post_then; [|intros _; apply post_ret; now apply fits_none].
    unfold de_unit. apply post_get. intros s'. apply post_then; [destruct (nt s'); [now apply post_ret|apply post_blind, blind_consume_str]|]. intros [|]; [now apply post_modify|apply post_fail].
  - apply post_then; [apply post_blind, blind_struct_type|]. intros t.
    assert (M : post (modify (set_nt false) ;;; content_main (de_content f) b) fits) by (apply post_then; [now apply post_modify|]; intros _; now apply post_content_main).
    destruct t; try exact M; try now apply post_tuple. now apply post_named.
Qed.
Lemma post_content_value : post content_value fits.
Proof. unfold content_value. apply post_then; [apply post_blind, blind_src|]. intros r. apply post_content. Qed.
End WithEnv.
