(** Lemmas on positions (C22) and on byte input (C23). *)
From Coq Require Import String Ascii NArith ZArith Lia Bool List.
From Coq Require Import ZifyBool ZifyNat ZifyN.
From Verif Require Import Base Facts Value Data Parse De Span.
Import ListNotations.
Open Scope N_scope.
Open Scope list_scope.

(** ** Specification: walk through the text, counting *)
Definition walk1 (p : position) (c : char) : position :=
  if c =? c_nl then Pos (S (line p)) 1 else Pos (line p) (S (col p)).
Definition walk (s : str) : position := fold_left walk1 s (Pos 1 1).

(** the order of positions *)
Definition pos_lt (a b : position) : Prop :=
  (line a < line b)%nat \/ (line a = line b /\ (col a < col b)%nat).

Lemma from_src_end_snoc s c : from_src_end (s ++ [c]) = walk1 (from_src_end s) c.
Proof.
  unfold from_src_end, walk1. rewrite filter_app, app_length, rev_app_distr. cbn [rev app filter takewhile line col].
  destruct (c =? c_nl); cbn [negb length]; f_equal; unfold char in *; lia.
Qed.
Lemma from_src_end_walk s : from_src_end s = walk s.
Proof.
  unfold walk. induction s as [|c s IH] using rev_ind; [reflexivity|].
  rewrite from_src_end_snoc, fold_left_app, IH. reflexivity.
Qed.
Lemma walk1_lt p c : pos_lt p (walk1 p c).
Proof. unfold pos_lt, walk1. destruct (c =? c_nl); cbn; lia. Qed.
Lemma pos_lt_trans a b c : pos_lt a b -> pos_lt b c -> pos_lt a c.
Proof. unfold pos_lt. lia. Qed.
Lemma pos_lt_irrefl a : ~ pos_lt a a.
Proof. unfold pos_lt. lia. Qed.
Lemma walk_lt a b : b <> [] -> pos_lt (walk a) (walk (a ++ b)).
Proof.
  unfold walk. rewrite fold_left_app. generalize (fold_left walk1 a (Pos 1 1)) as p. clear a.
  induction b as [|c b IH]; intros p N; [congruence|]. cbn [fold_left]. destruct b as [|d b].
  - apply walk1_lt.
  - eapply pos_lt_trans; [apply walk1_lt|]. apply IH. discriminate.
Qed.
Lemma position_monotone text i j : (i < j)%nat -> (j <= length text)%nat ->
  pos_lt (from_src_end (firstn i text)) (from_src_end (firstn j text)).
Proof.
  intros L1 L2. rewrite !from_src_end_walk.
  replace (firstn j text) with (firstn i text ++ firstn (j - i) (skipn i text)).
  - apply walk_lt. intros H. apply (f_equal (@length _)) in H. rewrite firstn_length, skipn_length in H. cbn in H. lia.
  - rewrite <- (firstn_skipn i text) at 3. rewrite firstn_app, firstn_firstn, firstn_length.
    replace (min j i) with i by lia. f_equal. f_equal. lia.
Qed.
Lemma position_unique text i j : (i <= length text)%nat -> (j <= length text)%nat ->
  from_src_end (firstn i text) = from_src_end (firstn j text) -> i = j.
Proof.
  intros L1 L2 H. destruct (lt_eq_lt_dec i j) as [[L|?]|L]; [|assumption|].
  - exfalso. assert (P := position_monotone text i j L L2). rewrite H in P. now apply pos_lt_irrefl in P.
  - exfalso. assert (P := position_monotone text j i L L1). rewrite H in P. now apply pos_lt_irrefl in P.
Qed.

(** closed form: the characters since the last newline *)
Lemma position_closed a b : Forall (fun c => c <> c_nl) b ->
  from_src_end (a ++ c_nl :: b) =
    Pos (2 + length (filter (fun c => c =? c_nl) a)) (1 + length b).
Proof.
  intros F. rewrite from_src_end_walk. induction b as [|c b IH] using rev_ind.
  - rewrite <- from_src_end_walk, from_src_end_snoc. unfold walk1, from_src_end. cbn. reflexivity.
  - apply Forall_app in F as [F1 F2]. inversion F2; subst.
    replace (a ++ c_nl :: b ++ [c]) with ((a ++ c_nl :: b) ++ [c]) by now rewrite <- app_assoc.
    rewrite <- from_src_end_walk, from_src_end_snoc, from_src_end_walk, IH by assumption.
    unfold walk1. replace (c =? 10) with false by lia. cbn. rewrite app_length. cbn. f_equal; lia.
Qed.
Lemma position_first_line b : Forall (fun c => c <> c_nl) b -> from_src_end b = Pos 1 (1 + length b).
Proof.
  intros F. unfold from_src_end.
  assert (G : forall l, Forall (fun c => c <> c_nl) l -> filter (fun c => c =? c_nl) l = []).
  { induction 1; cbn; [reflexivity|]. now replace (_ =? 10) with false by lia. }
  assert (H : forall l, Forall (fun c => c <> c_nl) l -> takewhile (fun c => negb (c =? c_nl)) l = l).
  { induction 1; cbn; [reflexivity|]. replace (_ =? 10) with false by lia. cbn. now rewrite IHForall. }
  rewrite G by assumption. rewrite H by now apply Forall_rev. now rewrite rev_length.
Qed.

(** ** Byte input *)
Section WithEnv.
Context {E : Env}.

Lemma dec_prefix_enc s q : wf_str s -> dec_char q = None -> dec_prefix (enc s ++ q) = (s, q).
Proof.
  intros W D. unfold dec_prefix. apply dec_aux_enc; auto. rewrite app_length, enc_len.
  assert (B := blen_length s). lia.
Qed.
Lemma from_bytes_enc {A} o (m : M A) s : wf_str s -> options_from_bytes o m (enc s) = options_from_str o m s.
Proof.
  intros W. unfold options_from_bytes. rewrite <- (app_nil_r (enc s)). now rewrite dec_prefix_enc.
Qed.
Lemma from_bytes_invalid {A} o (m : M A) s q : wf_str s -> q <> [] -> dec_char q = None ->
  options_from_bytes o m (enc s ++ q) = RError EUtf8Error (Pos 1 1, from_src_end s).
Proof.
  intros W N D. unfold options_from_bytes. rewrite dec_prefix_enc by assumption. now destruct q.
Qed.
Lemma dec_aux_stops f : forall bs s q, (length bs <= f)%nat -> dec_aux f bs = (s, q) -> dec_char q = None.
Proof.
  induction f as [|f IH]; intros bs s q L H; cbn in H.
  - injection H as <- <-. destruct bs; [reflexivity|cbn in L; lia].
  - destruct (dec_char bs) as [[c r]|] eqn:D; [|now injection H as <- <-].
    destruct (dec_aux f r) as [s' q'] eqn:R. injection H as <- <-. eapply IH; [|exact R].
    apply dec_char_spec in D as [_ ->]. rewrite app_length in L. assert (P := enc_char_pos c). lia.
Qed.
(** every byte sequence is a valid prefix and an undecodable rest *)
Lemma bytes_split bs : exists s q, wf_str s /\ bs = enc s ++ q /\ dec_char q = None.
Proof.
  destruct (dec_prefix bs) as [s q] eqn:D. exists s, q. unfold dec_prefix in D.
  assert (S := dec_aux_spec _ _ _ _ D). destruct S. split; [assumption|]. split; [assumption|].
  eapply dec_aux_stops; [|exact D]. lia.
Qed.
Lemma enc_inj a b p q : wf_str a -> wf_str b -> dec_char p = None -> dec_char q = None ->
  enc a ++ p = enc b ++ q -> a = b /\ p = q.
Proof.
  intros WA WB DP DQ H. assert (D := dec_prefix_enc a p WA DP). rewrite H, dec_prefix_enc in D by assumption.
  injection D as <- <-. auto.
Qed.
End WithEnv.
Lemma dec_char_none q : dec_char q = None <-> forall c r, is_scalar c = true -> q <> enc_char c ++ r.
Proof.
  split.
  - intros D c r S ->. rewrite dec_enc_char in D by assumption. discriminate.
  - intros H. destruct (dec_char q) as [[c r]|] eqn:D; [|reflexivity].
    apply dec_char_spec in D as [S ->]. now destruct (H c r S).
Qed.
