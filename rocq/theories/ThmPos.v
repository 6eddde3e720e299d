(** C22 positions, C23 byte input. *)
From Coq Require Import String Ascii NArith ZArith Lia Bool List.
From Verif Require Import Base Facts Value Data Parse De Span Toy PosFacts.
Import ListNotations.
Open Scope N_scope.
Open Scope list_scope.

(** ** C22 *)

(** the position after a prefix of the document is found by walking through
    it: a newline starts a new line, any other character a new column *)
Theorem C22_position_walk : forall text,
  from_src_end text = fold_left (fun p c => if c =? 10 then Pos (S (line p)) 1
                                            else Pos (line p) (S (col p))) text (Pos 1 1).
Proof. exact from_src_end_walk. Qed.
Print Assumptions C22_position_walk.

Theorem C22_position_closed : forall a b, Forall (fun c => c <> 10) b ->
  from_src_end b = Pos 1 (1 + length b) /\
  from_src_end (a ++ 10 :: b) = Pos (2 + length (filter (fun c => c =? 10) a)) (1 + length b).
Proof. exact (fun a b F => conj (position_first_line b F) (position_closed a b F)). Qed.
Print Assumptions C22_position_closed.

Theorem C22_position_unique : forall text i j,
  (i <= length text)%nat -> (j <= length text)%nat ->
  from_src_end (firstn i text) = from_src_end (firstn j text) -> i = j.
Proof. exact position_unique. Qed.
Print Assumptions C22_position_unique.

Theorem C22_position_monotone : forall text i j, (i < j)%nat -> (j <= length text)%nat ->
  let a := from_src_end (firstn i text) in let b := from_src_end (firstn j text) in
  (line a < line b)%nat \/ (line a = line b /\ (col a < col b)%nat).
Proof. exact position_monotone. Qed.
Print Assumptions C22_position_monotone.

Example C22_example : from_src_end (lit "ab" ++ [10; 10] ++ lit "xyz") = Pos 3 4.
Proof. reflexivity. Qed.
Example C22_example_unique : exists text i j, (i <= length text)%nat /\ (j <= length text)%nat /\
  i <> j /\ line (from_src_end (firstn i text)) = line (from_src_end (firstn j text)).
Proof. exists (lit "abc"), 1%nat, 2%nat. cbn. repeat split; lia. Qed.

(** ** C23 *)

Theorem C23_bytes_agree : forall {E : Env} A (m : M A) o text, wf_str text ->
  options_from_bytes o m (enc text) = options_from_str o m text /\
  options_from_reader o m (enc text) false = options_from_str o m text.
Proof. exact (fun E A m o text W => conj (from_bytes_enc o m text W) (from_bytes_enc o m text W)). Qed.
Print Assumptions C23_bytes_agree.

(** [q] cannot be continued as UTF-8 at its very first byte, so [text] is the
    longest valid prefix *)
Theorem C23_invalid_rejected : forall {E : Env} A (m : M A) o text q,
  wf_str text -> q <> [] -> dec_char q = None ->
  options_from_bytes o m (enc text ++ q) = RError EUtf8Error (Pos 1 1, from_src_end text) /\
  options_from_reader o m (enc text ++ q) false = RError EUtf8Error (Pos 1 1, from_src_end text).
Proof.
  exact (fun E A m o text q W N D =>
    conj (from_bytes_invalid o m text q W N D) (from_bytes_invalid o m text q W N D)).
Qed.
Print Assumptions C23_invalid_rejected.

(** the two theorems cover every byte sequence, and the split is unique;
    [dec_char q = None] means that no scalar value's encoding begins [q] *)
Theorem C23_every_input : forall bs, exists text q,
  wf_str text /\ bs = enc text ++ q /\ dec_char q = None.
Proof. exact bytes_split. Qed.
Print Assumptions C23_every_input.
Theorem C23_split_unique : forall a b p q, wf_str a -> wf_str b -> dec_char p = None -> dec_char q = None ->
  enc a ++ p = enc b ++ q -> a = b /\ p = q.
Proof. exact enc_inj. Qed.
Print Assumptions C23_split_unique.
Theorem C23_undecodable : forall q, dec_char q = None <->
  forall c r, is_scalar c = true -> q <> enc_char c ++ r.
Proof. exact dec_char_none. Qed.
Print Assumptions C23_undecodable.

(** a reader that fails always yields an I/O error *)
Theorem C23_failing_reader : forall {E : Env} A (m : M A) o bs,
  exists sp, options_from_reader o m bs true = RError EIo sp.
Proof. exact (fun E A m o bs => ex_intro _ _ eq_refl). Qed.
Print Assumptions C23_failing_reader.

Example C23_example : wf_str [8364; 65] /\ enc [8364; 65] = [226; 130; 172; 65] /\ dec_char [226; 130; 65] = None.
Proof. split; [repeat constructor|split; reflexivity]. Qed.
Example C23_example_run : 
  @options_from_bytes Toy _ opts_default (@any_value Toy) [91; 49; 10; 226; 130]
  = RError EUtf8Error (Pos 1 1, Pos 2 1).
Proof. vm_compute. reflexivity. Qed.
