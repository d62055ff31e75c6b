(** UTF-8 as RFC 3629 defines it, in plain arithmetic. *)
From Verif Require Import Base.

Definition scalar_max : Z := 0x10FFFF.

(** RFC 3629 section 3, the table of octet sequences. *)
Definition utf8_of (c : Z) : bytes :=
  if c <? 0x80 then [c]
  else if c <? 0x800 then [192 + c / 64; 128 + c mod 64]
  else if c <? 0x10000 then [224 + c / 4096; 128 + c / 64 mod 64; 128 + c mod 64]
  else [240 + c / 262144; 128 + c / 4096 mod 64; 128 + c / 64 mod 64; 128 + c mod 64].

(** UTF-16 (RFC 2781): one unit below U+10000, otherwise a surrogate pair. *)
Definition utf16_of (c : Z) : list Z :=
  if c <? 0x10000 then [c]
  else [0xD800 + (c - 0x10000) / 1024; 0xDC00 + (c - 0x10000) mod 1024].

(** Decoding of a UTF-16 code unit sequence into code points. *)
Fixpoint utf16_decode (u : list Z) : list Z :=
  match u with
  | hi :: ((lo :: r) as t) =>
      if (0xD800 <=? hi) && (hi <? 0xDC00) && (0xDC00 <=? lo) && (lo <? 0xE000)
      then (0x10000 + (hi - 0xD800) * 1024 + (lo - 0xDC00)) :: utf16_decode r
      else hi :: utf16_decode t
  | [hi] => [hi]
  | [] => []
  end.

(** A Unicode scalar value: a code point which is not a surrogate. *)
Definition is_scalar (c : Z) : Prop :=
  0 <= c <= scalar_max /\ ~ (0xD800 <= c <= 0xDFFF).

(** A code point has its shortest encoding. *)
Definition continuation (b : Z) : Prop := 128 <= b < 192.
