(** The base64 decoder decodes exactly base64. *)
From Coq Require Import String Ascii NArith ZArith Lia Bool List.
From Coq Require Import ZifyBool ZifyNat ZifyN.
From Verif Require Import Base Facts Base64 B64.
Import ListNotations.
Open Scope N_scope.
Open Scope list_scope.

Lemma position_nth b l v : position b l = Some v -> nth_error l (N.to_nat v) = Some b.
Proof.
  revert v; induction l as [|x l IH]; intros v; cbn [position]; [discriminate|].
  destruct (x =? b) eqn:X.
  - intros H. injection H as <-. apply N.eqb_eq in X as ->. reflexivity.
  - destruct (position b l) as [v'|]; [|discriminate]. cbn [option_map]. intros H. injection H as <-.
    rewrite N2Nat.inj_succ. cbn. now apply IH.
Qed.
Lemma nat_cases (P : nat -> Prop) n k : (n < k)%nat -> (forall m, In m (seq 0 k) -> P m) -> P n.
Proof. intros L H. apply H, in_seq. lia. Qed.
Lemma N_cases (P : N -> Prop) n k : n < N.of_nat k -> Forall P (map N.of_nat (seq 0 k)) -> P n.
Proof.
  intros L H. rewrite Forall_forall in H. apply H, in_map_iff. exists (N.to_nat n). split; [lia|]. apply in_seq. lia.
Qed.
Lemma N_cases_b (f : N -> bool) n k : n < N.of_nat k -> forallb f (map N.of_nat (seq 0 k)) = true -> f n = true.
Proof.
  intros L H. rewrite forallb_forall in H. apply H, in_map_iff. exists (N.to_nat n). split; [lia|]. apply in_seq. lia.
Qed.
Lemma sextet_position c v : sextet c v -> position c b64_charset = Some v.
Proof.
  intros H.
  assert (G : forall o o' n k, n < N.of_nat k ->
    forallb (fun n => match position (o + n) b64_charset with Some v => v =? o' + n | None => false end) (map N.of_nat (seq 0 k)) = true ->
    position (o + n) b64_charset = Some (o' + n)).
  { intros o o' n k L B. apply (N_cases_b _ n k L) in B. cbv beta in B. destruct (position (o + n) b64_charset); [|discriminate]. f_equal. lia. }
  destruct H as [n L|n L|n L| |]; try reflexivity.
  - apply (G 65 0 n 26%nat); [lia|]. vm_compute. reflexivity.
  - apply (G 97 26 n 26%nat); [lia|]. vm_compute. reflexivity.
  - apply (G 48 52 n 10%nat); [lia|]. vm_compute. reflexivity.
Qed.
Lemma position_sextet c v : position c b64_charset = Some v -> sextet c v.
Proof.
  intros H. apply position_nth in H.
  assert (L : (N.to_nat v < 64)%nat) by (change 64%nat with (length b64_charset); apply nth_error_Some; congruence).
  assert (V : v < 64) by lia. clear L.
  destruct (v <? 26) eqn:A1.
  { assert (C : c = 65 + v).
    { assert (B := N_cases_b (fun v => match nth_error b64_charset (N.to_nat v) with Some c => c =? 65 + v | None => false end) v 26).
      cbv beta in B. rewrite H in B. apply N.eqb_eq, B; [lia|]. vm_compute. reflexivity. }
    subst c. constructor. lia. }
  destruct (v <? 52) eqn:A2.
  { assert (C : c = 97 + (v - 26)).
    { assert (B := N_cases_b (fun v => if v <? 26 then true else match nth_error b64_charset (N.to_nat v) with Some c => c =? 97 + (v - 26) | None => false end) v 52).
      cbv beta in B. rewrite H, A1 in B. apply N.eqb_eq, B; [lia|]. vm_compute. reflexivity. }
    subst c. replace v with (26 + (v - 26)) at 2 by lia. constructor. lia. }
  destruct (v <? 62) eqn:A3.
  { assert (C : c = 48 + (v - 52)).
    { assert (B := N_cases_b (fun v => if v <? 52 then true else match nth_error b64_charset (N.to_nat v) with Some c => c =? 48 + (v - 52) | None => false end) v 62).
      cbv beta in B. rewrite H, A2 in B. apply N.eqb_eq, B; [lia|]. vm_compute. reflexivity. }
    subst c. replace v with (52 + (v - 52)) at 2 by lia. constructor. lia. }
  assert (V' : v = 62 \/ v = 63) by lia. destruct V' as [-> | ->]; vm_compute in H; injection H as <-; constructor.
Qed.
Lemma sextet_bound c v : sextet c v -> v < 64.
Proof. destruct 1; lia. Qed.
Lemma sextet_char c v : sextet c v -> c < 128 /\ c <> 61.
Proof. destruct 1; lia. Qed.

(** the shifts of the loop, on all pairs of sextets *)
Lemma pairs (f : N -> N -> bool) x y : x < 64 -> y < 64 ->
  forallb (fun x => forallb (f x) (map N.of_nat (seq 0 64))) (map N.of_nat (seq 0 64)) = true -> f x y = true.
Proof.
  intros HX HY H. apply (N_cases_b (fun x => forallb (f x) (map N.of_nat (seq 0 64))) x 64 ltac:(lia)) in H.
  exact (N_cases_b _ y 64 ltac:(lia) H).
Qed.
Definition b1 (x y : N) : N := x * 4 + y / 16.
Definition b2 (y z : N) : N := y mod 16 * 16 + z / 4.
Definition b3 (z w : N) : N := z mod 4 * 64 + w.
Lemma shift1 x y : x < 64 -> y < 64 ->
  N.shiftr (N.lor (N.lor 0 (N.shiftl x 10)) (N.shiftl y 4)) 8 = b1 x y /\
  N.shiftl (N.lor (N.lor 0 (N.shiftl x 10)) (N.shiftl y 4) mod 256) 8 = y mod 16 * 4096.
Proof.
  intros HX HY. assert (H := pairs (fun x y => (N.shiftr (N.lor (N.lor 0 (N.shiftl x 10)) (N.shiftl y 4)) 8 =? b1 x y) &&
    (N.shiftl (N.lor (N.lor 0 (N.shiftl x 10)) (N.shiftl y 4) mod 256) 8 =? y mod 16 * 4096)) x y HX HY).
  cbv beta in H. rewrite andb_true_iff, !N.eqb_eq in H. apply H. vm_compute. reflexivity.
Qed.
Lemma shift2 y z : y < 64 -> z < 64 ->
  N.shiftr (N.lor (y mod 16 * 4096) (N.shiftl z 6)) 8 = b2 y z /\
  N.shiftl (N.lor (y mod 16 * 4096) (N.shiftl z 6) mod 256) 8 = z mod 4 * 16384.
Proof.
  intros HX HY. assert (H := pairs (fun y z => (N.shiftr (N.lor (y mod 16 * 4096) (N.shiftl z 6)) 8 =? b2 y z) &&
    (N.shiftl (N.lor (y mod 16 * 4096) (N.shiftl z 6) mod 256) 8 =? z mod 4 * 16384)) y z HX HY).
  cbv beta in H. rewrite andb_true_iff, !N.eqb_eq in H. apply H. vm_compute. reflexivity.
Qed.
Lemma shift3 z w : z < 64 -> w < 64 ->
  N.shiftr (N.lor (z mod 4 * 16384) (N.shiftl w 8)) 8 = b3 z w /\
  N.shiftl (N.lor (z mod 4 * 16384) (N.shiftl w 8) mod 256) 8 = 0.
Proof.
  intros HX HY. assert (H := pairs (fun z w => (N.shiftr (N.lor (z mod 4 * 16384) (N.shiftl w 8)) 8 =? b3 z w) &&
    (N.shiftl (N.lor (z mod 4 * 16384) (N.shiftl w 8) mod 256) 8 =? 0)) z w HX HY).
  cbv beta in H. rewrite andb_true_iff, !N.eqb_eq in H. apply H. vm_compute. reflexivity.
Qed.
Definition pushed (b : N) (o : option (bytes * N)) : option (bytes * N) :=
  match o with Some (out, l) => Some (b :: out, l) | None => None end.
Lemma loop_two a b x y r : sextet a x -> sextet b y ->
  b64_loop (a :: b :: r) 0 0 = pushed (b1 x y) (b64_loop r 4 (y mod 16 * 4096)).
Proof.
  intros HA HB. assert (LA := sextet_bound _ _ HA). assert (LB := sextet_bound _ _ HB).
  apply sextet_position in HA, HB. cbn [b64_loop]. rewrite HA. cbn zeta.
  change (0 + 6 <? 8) with true. cbn match. cbn [b64_loop]. rewrite HB. change (0 + 6 + 6 <? 8) with false. cbn match.
  change (10 - 0) with 10. change (10 - (0 + 6)) with 4. change (0 + 6 + 6 - 8) with 4.
  destruct (shift1 x y LA LB) as [-> ->]. reflexivity.
Qed.
Lemma loop_three y c z r : y < 64 -> sextet c z ->
  b64_loop (c :: r) 4 (y mod 16 * 4096) = pushed (b2 y z) (b64_loop r 2 (z mod 4 * 16384)).
Proof.
  intros LY HC. assert (LC := sextet_bound _ _ HC). apply sextet_position in HC. cbn [b64_loop]. rewrite HC. cbn zeta.
  change (4 + 6 <? 8) with false. cbn match. change (10 - 4) with 6. change (4 + 6 - 8) with 2.
  destruct (shift2 y z LY LC) as [-> ->]. reflexivity.
Qed.
Lemma loop_four z d w r : z < 64 -> sextet d w ->
  b64_loop (d :: r) 2 (z mod 4 * 16384) = pushed (b3 z w) (b64_loop r 0 0).
Proof.
  intros LZ HD. assert (LD := sextet_bound _ _ HD). apply sextet_position in HD. cbn [b64_loop]. rewrite HD. cbn zeta.
  change (2 + 6 <? 8) with false. cbn match. change (10 - 2) with 8. change (2 + 6 - 8) with 0.
  destruct (shift3 z w LZ LD) as [-> ->]. reflexivity.
Qed.
Lemma loop_head b r n k x : b64_loop (b :: r) n k = Some x -> exists v, sextet b v.
Proof.
  cbn [b64_loop]. destruct (position b b64_charset) as [v|] eqn:P; [|discriminate]. intros _. exists v. now apply position_sextet.
Qed.
Lemma pushed_some b o x : pushed b o = Some x -> exists out l, o = Some (out, l) /\ x = (b :: out, l).
Proof. destruct o as [[out l]|]; [|discriminate]. cbn. intros H. injection H as <-. eauto. Qed.

(** ** Padding *)
Lemma trim_pad bs : exists n, bs = trim_end_pad bs ++ repeat 61 n.
Proof.
  induction bs as [|b r [n IH]]; [now exists 0%nat|]. cbn [trim_end_pad].
  destruct (trim_end_pad r) as [|c l] eqn:R.
  - destruct (b =? 61) eqn:B; [|exists n; rewrite IH; reflexivity].
    apply N.eqb_eq in B as ->. exists (S n). cbn. now rewrite IH at 1.
  - exists n. rewrite IH at 1. reflexivity.
Qed.
Lemma trim_app bs n : existsb (fun b => b =? 61) bs = false -> trim_end_pad (bs ++ repeat 61 n) = bs.
Proof.
  intros H. induction bs as [|b r IH]; cbn [app].
  - induction n as [|n IH]; [reflexivity|]. cbn [repeat trim_end_pad]. now rewrite IH.
  - cbn [existsb] in H. apply orb_false_iff in H as [H1 H2]. cbn [trim_end_pad].
    rewrite (IH H2). destruct r; [now rewrite H1|reflexivity].
Qed.
Lemma enc_ascii s : forallb (fun b => b <? 128) (enc s) = true -> enc s = s.
Proof.
  induction s as [|c s IH]; [reflexivity|]. unfold enc in *. cbn [flat_map]. rewrite forallb_app, andb_true_iff.
  intros [A B]. rewrite (IH B). unfold enc_char in *. destruct (c <? 128) eqn:L; [reflexivity|]. exfalso.
  destruct (c <? 2048); [|destruct (c <? 65536)]; cbn [forallb] in A; lia.
Qed.
Lemma ascii_enc s : forallb (fun b => b <? 128) s = true -> enc s = s.
Proof.
  induction s as [|c s IH]; [reflexivity|]. cbn [forallb]. intros [A B]%andb_true_iff. unfold enc in *. cbn [flat_map].
  rewrite (IH B). unfold enc_char. now rewrite A.
Qed.

(** ** The decoder and the specification *)
Definition b64_shape (s : str) (bs : bytes) : Prop := exists np pad,
  s = np ++ repeat 61 pad /\ (pad <= 2)%nat /\ (length s mod 4 = 0)%nat /\
  existsb (fun b => b =? 61) np = false /\ forallb (fun b => b <? 128) np = true /\
  b64_loop np 0 0 = Some (bs, N.of_nat (pad * 2)).
Lemma text_shape s bs : b64_text s bs -> b64_shape s bs.
Proof.
  induction 1 as [|a b c d x y z w t bs HA HB HC HD _ (np & pad & -> & LP & LM & NE & AS & LO)|a b c x y z HA HB HC|a b x y HA HB].
  - exists [], 0%nat. repeat split. lia.
  - exists (a :: b :: c :: d :: np), pad.
    destruct (sextet_char _ _ HA), (sextet_char _ _ HB), (sextet_char _ _ HC), (sextet_char _ _ HD).
    split; [reflexivity|]. split; [assumption|]. split.
    { transitivity (length (np ++ repeat 61%N pad) mod 4)%nat; [|exact LM].
      rewrite <- (Nat.mod_add (length (np ++ repeat 61%N pad)) 1 4) by lia. f_equal. cbn [length app]. unfold str, char, byte in *. lia. }
    split; [cbn [existsb]; rewrite NE; lia|]. split; [cbn [forallb]; rewrite AS; lia|].
    rewrite (loop_two _ _ _ _ _ HA HB), (loop_three _ _ _ _ (sextet_bound _ _ HB) HC), (loop_four _ _ _ _ (sextet_bound _ _ HC) HD), LO.
    reflexivity.
  - exists [a; b; c], 1%nat. destruct (sextet_char _ _ HA), (sextet_char _ _ HB), (sextet_char _ _ HC).
    split; [reflexivity|]. split; [lia|]. split; [reflexivity|]. split; [cbn [existsb]; lia|]. split; [cbn [forallb]; lia|].
    rewrite (loop_two _ _ _ _ _ HA HB), (loop_three _ _ _ _ (sextet_bound _ _ HB) HC). reflexivity.
  - exists [a; b], 2%nat. destruct (sextet_char _ _ HA), (sextet_char _ _ HB).
    split; [reflexivity|]. split; [lia|]. split; [reflexivity|]. split; [cbn [existsb]; lia|]. split; [cbn [forallb]; lia|].
    rewrite (loop_two _ _ _ _ _ HA HB). reflexivity.
Qed.
Lemma loop_text n : forall np pad bs, (length np <= n)%nat -> (pad <= 2)%nat -> ((length np + pad) mod 4 = 0)%nat ->
  b64_loop np 0 0 = Some (bs, N.of_nat (pad * 2)) -> b64_text (np ++ repeat 61 pad) bs.
Proof.
  induction n as [|n IH]; intros np pad bs L LP LM LO.
  { destruct np; [|cbn in L; lia]. destruct pad as [|[|[|pad]]]; try (cbn in LM; lia).
    cbn in LO. injection LO as <-. constructor. }
  destruct np as [|a np].
  { destruct pad as [|[|[|pad]]]; try (cbn in LM; lia). cbn in LO. injection LO as <-. constructor. }
  destruct (loop_head _ _ _ _ _ LO) as [x HA]. destruct np as [|b np].
  { destruct pad as [|[|[|pad]]]; cbn in LM; lia. }
  assert (HB : exists y, sextet b y).
  { cbn [b64_loop] in LO. rewrite (sextet_position _ _ HA) in LO. cbn zeta in LO. change (0 + 6 <? 8) with true in LO. cbn match in LO.
    change (b64_loop (b :: np) (0 + 6) (N.lor 0 (N.shiftl x (10 - 0))) = Some (bs, N.of_nat (pad * 2))) in LO. exact (loop_head _ _ _ _ _ LO). }
  destruct HB as [y HB]. rewrite (loop_two _ _ _ _ _ HA HB) in LO. apply pushed_some in LO as (o1 & l1 & LO & Q).
  injection Q as -> <-. destruct np as [|c np].
  { destruct pad as [|[|[|pad]]]; try (cbn in LM; lia). cbn in LO. injection LO as <-. now apply b64_one. }
  destruct (loop_head _ _ _ _ _ LO) as [z HC]. rewrite (loop_three _ _ _ _ (sextet_bound _ _ HB) HC) in LO.
  apply pushed_some in LO as (o2 & l2 & LO & Q). injection Q as -> <-. destruct np as [|d np].
  { destruct pad as [|[|[|pad]]]; try (cbn in LM; lia). cbn in LO. injection LO as <-. now apply b64_two. }
  destruct (loop_head _ _ _ _ _ LO) as [w HD]. rewrite (loop_four _ _ _ _ (sextet_bound _ _ HC) HD) in LO.
  apply pushed_some in LO as (o3 & l3 & LO & Q). injection Q as -> <-. cbn [app]. apply b64_group; auto.
  apply IH; auto.
  - cbn in L. lia.
  - cbn [length] in LM. replace (S (S (S (S (length np)))) + pad)%nat with (length np + pad + 1 * 4)%nat in LM by lia.
    now rewrite Nat.mod_add in LM by lia.
Qed.
Theorem base64_decoder s bs : try_decode_base64 s = Some bs <-> b64_text s bs.
Proof.
  split.
  - unfold try_decode_base64. destruct (Nat.eqb (length (enc s) mod 4) 0) eqn:LM; [|discriminate]. cbn [negb].
    destruct (trim_pad (enc s)) as [pad HP]. set (np := trim_end_pad (enc s)) in *.
    destruct (Nat.ltb 2 _) eqn:LP; [discriminate|]. destruct (existsb (fun b => b =? 61) np) eqn:NE; [discriminate|].
    destruct (forallb (fun b => b <? 128) (enc s)) eqn:AS; [|discriminate]. cbn [negb].
    destruct (b64_loop np 0 0) as [[out lft]|] eqn:LO; [|discriminate].
    destruct (lft =? _) eqn:LL; [|discriminate]. intros Q. injection Q as <-.
    assert (LE : length (enc s) = (length np + pad)%nat) by (rewrite HP, app_length, repeat_length; reflexivity).
    apply enc_ascii in AS. rewrite AS in *. rewrite HP.
    apply Nat.eqb_eq in LM. apply loop_text with (length np); [lia|lia| |].
    + now rewrite <- LE.
    + rewrite LO. f_equal. f_equal. apply N.eqb_eq in LL. rewrite LL. f_equal. lia.
  - intros H. apply text_shape in H as (np & pad & HS & LP & LM & NE & AS & LO).
    assert (A2 : forallb (fun b => b <? 128) s = true).
    { rewrite HS, forallb_app, AS. clear. cbn [andb]. induction pad as [|n IH]; [reflexivity|]. cbn [repeat forallb]. now rewrite IH. }
    unfold try_decode_base64. cbv zeta. rewrite (ascii_enc _ A2). unfold str, char, bytes, byte in *. rewrite LM, A2. cbn [negb Nat.eqb].
    assert (TP : trim_end_pad s = np) by (rewrite HS; now apply trim_app).
    unfold str, char, bytes, byte in *. rewrite TP, NE.
    assert (LL : (length s - length np = pad)%nat) by (rewrite HS, app_length, repeat_length; lia).
    rewrite LL. replace (Nat.ltb 2 pad) with false by lia.
    rewrite LO, N.eqb_refl. reflexivity.
Qed.
