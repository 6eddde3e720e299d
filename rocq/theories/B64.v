(** Specification of padded base64 text (RFC 4648, section 4). *)
From Coq Require Import NArith List.
From Verif Require Import Base.
Import ListNotations.
Open Scope N_scope.
Open Scope list_scope.

(** A-Z, a-z, 0-9, + and / stand for 0 to 63 *)
Inductive sextet : char -> N -> Prop :=
  | sx_upper n : n < 26 -> sextet (65 + n) n
  | sx_lower n : n < 26 -> sextet (97 + n) (26 + n)
  | sx_digit n : n < 10 -> sextet (48 + n) (52 + n)
  | sx_plus : sextet 43 62
  | sx_slash : sextet 47 63.

(** Groups of four characters; the last group may stand for one or two bytes,
    and its unused bits may have any value. *)
Inductive b64_text : str -> bytes -> Prop :=
  | b64_nil : b64_text [] []
  | b64_group a b c d x y z w t bs :
      sextet a x -> sextet b y -> sextet c z -> sextet d w -> b64_text t bs ->
      b64_text (a :: b :: c :: d :: t)
               (x * 4 + y / 16 :: y mod 16 * 16 + z / 4 :: z mod 4 * 64 + w :: bs)
  | b64_two a b c x y z : sextet a x -> sextet b y -> sextet c z ->
      b64_text [a; b; c; 61] [x * 4 + y / 16; y mod 16 * 16 + z / 4]
  | b64_one a b x y : sextet a x -> sextet b y -> b64_text [a; b; 61; 61] [x * 4 + y / 16].
