(** What the proofs assume about the library functions of [Env].  These are
    hypotheses of the theorems that need them; [Toy] shows they can be met. *)
From Coq Require Import String Ascii NArith ZArith Lia Bool List.
From Coq Require Import ZifyBool ZifyNat ZifyN.
From Verif Require Import Base Facts Parse.
Import ListNotations.
Open Scope N_scope.
Open Scope list_scope.

Definition is_alpha (c : char) : bool :=
  ((65 <=? c) && (c <=? 90)) || ((97 <=? c) && (c <=? 122)).

(** unicode_ident, as far as the grammar depends on it: its ASCII part, XID_Start
    is contained in XID_Continue, and no RON whitespace character is in
    XID_Continue *)
Class XidOk (E : Env) : Prop := {
  xid_start_ascii : forall c, c < 128 -> xid_start c = is_alpha c;
  xid_continue_ascii : forall c, c < 128 ->
    xid_continue c = is_alpha c || is_digit c || (c =? c_us);
  xid_start_continue : forall c, xid_start c = true -> xid_continue c = true;
  ws_not_xid : forall c, is_ws_char c = true -> xid_continue c = false;
}.

(** Rust's float formatting and parsing, as far as the round trip depends on
    it.  Finite floats are written positionally (no exponent), with a fraction
    exactly when they are not integral, and parse back to themselves. *)
Definition f_finite (k : fk) (b : N) : Prop := b < 2 ^ f_bits k /\ f_abs k b < f_inf k.
Definition digit_str (s : str) : Prop := s <> [] /\ forallb is_digit s = true.
Definition f_point_zero (integral : bool) : str := if integral then [c_dot; c_0] else [].
Class FloatOk (E : Env) : Prop := {
  show_nan : forall k b, f_is_nan k b = true -> f_show k b = s_NaN;
  show_inf : forall k b, f_abs k b = f_inf k -> f_show k b = if f_sign k b then s_minf else s_inf;
  show_finite : forall k b, f_finite k b -> exists ds fs, digit_str ds /\ digit_str fs /\
    f_show k b = (if f_sign k b then [c_minus] else []) ++ ds ++
                 (if f_integral k b then [] else c_dot :: fs);
  not_integral : forall k b, f_inf k <= f_abs k b -> f_integral k b = false;
  read_finite : forall k b, f_finite k b ->
    f_read k (f_show k b ++ f_point_zero (f_integral k b)) = Some b;
  read_inf : forall k, f_read k s_inf = Some (f_inf k);
  read_minf : forall k, f_read k s_minf = Some (f_inf k + f_signbit k);
  read_nan : forall k, f_read k s_NaN = Some (f_nan k);
  read_mnan : forall k, f_read k s_mNaN = Some (f_nan k + f_signbit k);
}.

Section Facts.
Context {E : Env} {X : XidOk E}.

Lemma first_continue c : is_ident_first_char c = true -> xid_continue c = true.
Proof.
  unfold is_ident_first_char. intros [H|H]%orb_true_iff.
  - apply N.eqb_eq in H as ->. now rewrite xid_continue_ascii.
  - now apply xid_start_continue.
Qed.
Lemma continue_raw c : xid_continue c = true -> is_ident_raw_char c = true.
Proof. unfold is_ident_raw_char. intros ->. now rewrite !orb_true_r. Qed.

End Facts.
