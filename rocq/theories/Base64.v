(** Model of the base64 decoder behind the byte-string error hint. *)
From Coq Require Import String NArith List Bool.
From Verif Require Import Base.
Import ListNotations.
Open Scope N_scope.

(** CHARSET (parse.rs:1720-1721). *)
Definition b64_charset : bytes := Eval vm_compute in
  lit "ABCDEFGHIJKLMNOPQRSTUVWXYZabcdefghijklmnopqrstuvwxyz0123456789+/".

(** [CHARSET.iter().position(|&x| x == b)] (parse.rs:1755). *)
Fixpoint position (b : byte) (l : bytes) : option N :=
  match l with
  | [] => None
  | x :: l' => if x =? b then Some 0 else option_map N.succ (position b l')
  end.

(** [trim_end_matches('=')] (parse.rs:1729). *)
Fixpoint trim_end_pad (bs : bytes) : bytes :=
  match bs with
  | [] => []
  | b :: r => match trim_end_pad r with
              | [] => if b =? 61 then [] else [b]
              | r' => b :: r'
              end
  end.

(** The decode loop (parse.rs:1746-1770).  [collected_bits] is below 8 before
    every read, so the inner [while] reads one byte and, once 8 bits are
    there, the outer loop pushes exactly one byte; the nested loops become one
    recursion over the remaining input.  Returns the bytes and the number of
    bits left over. *)
Fixpoint b64_loop (bs : bytes) (collected buffer : N) : option (bytes * N) :=
  match bs with
  | [] => Some ([], collected)
  | b :: r =>
      match position b b64_charset with
      | None => None
      | Some idx =>
          let buffer := N.lor buffer (N.shiftl idx (10 - collected)) in
          let collected := collected + 6 in
          if collected <? 8 then b64_loop r collected buffer
          else
            match b64_loop r (collected - 8) (N.shiftl (buffer mod 256) 8) with
            | Some (out, lft) => Some (N.shiftr buffer 8 :: out, lft)
            | None => None
            end
      end
  end.

(** try_decode_base64 (parse.rs:1719-1777). *)
Definition try_decode_base64 (s : str) : option bytes :=
  let bs := enc s in
  if negb (Nat.eqb (Nat.modulo (length bs) 4) 0) then None else
  let np := trim_end_pad bs in
  let pad := (length bs - length np)%nat in
  if Nat.ltb 2 pad then None else
  if existsb (fun b => b =? 61) np then None else
  if negb (forallb (fun b => b <? 128) bs) then None else
  match b64_loop np 0 0 with
  | None => None
  | Some (out, lft) =>
      if lft =? N.of_nat (pad * 2) then Some out else None
  end.
