(** Model of the UTF-8 codec and identifier tables, /repo/unicode.c:1-188. *)
From Verif Require Import Base.

(** unicode.c:5-43 encode_utf8. [c] is a uint32_t; each store into a char
    keeps the low 8 bits. The result is the list of bytes stored at buf. *)
Definition encode_utf8 (c : Z) : bytes :=
  if c <=? 0x7F then [c mod 256]
  else if c <=? 0x7FF then
    [Z.lor 0xC0 (Z.shiftr c 6) mod 256; Z.lor 0x80 (Z.land c 0x3F) mod 256]
  else if c <=? 0xFFFF then
    [Z.lor 0xE0 (Z.shiftr c 12) mod 256; Z.lor 0x80 (Z.land (Z.shiftr c 6) 0x3F) mod 256;
     Z.lor 0x80 (Z.land c 0x3F) mod 256]
  else
    [Z.lor 0xF0 (Z.shiftr c 18) mod 256; Z.lor 0x80 (Z.land (Z.shiftr c 12) 0x3F) mod 256;
     Z.lor 0x80 (Z.land (Z.shiftr c 6) 0x3F) mod 256; Z.lor 0x80 (Z.land c 0x3F) mod 256].

(** A NUL-terminated buffer is the list of the bytes before the NUL; reading
    index [i] at or after the end of the list gives the NUL (only index
    [length] is really readable: the theorems check that no code relies on
    more). *)
Definition at_ (p : bytes) (i : nat) : Z := nth i p 0.

(** unicode.c:82-88: continuation bytes [i .. len-1]; [None] = error_at. *)
Fixpoint decode_cont (p : bytes) (i n : nat) (c : Z) : option Z :=
  match n with
  | O => Some c
  | S n' =>
      if Z.shiftr (at_ p i) 6 =? 2 then
        decode_cont p (S i) n' (Z.lor (Z.shiftl c 6 mod 2^32) (Z.land (at_ p i) 0x3F))
      else None
  end.

(** unicode.c:54-92 decode_utf8: code point and number of bytes consumed
    ( *new_pos - p ); [None] is the "invalid UTF-8 sequence" error exit. *)
Definition decode_utf8 (p : bytes) : option (Z * nat) :=
  let b := at_ p 0 in
  if b <? 128 then Some (b, 1%nat)
  else if 0xF0 <=? b then
    match decode_cont p 1 3 (Z.land b 7) with Some c => Some (c, 4%nat) | None => None end
  else if 0xE0 <=? b then
    match decode_cont p 1 2 (Z.land b 15) with Some c => Some (c, 3%nat) | None => None end
  else if 0xC0 <=? b then
    match decode_cont p 1 1 (Z.land b 31) with Some c => Some (c, 2%nat) | None => None end
  else None.

(** unicode.c:94-100 in_range, over a table of (low, high) pairs. *)
Definition in_range (t : list (Z * Z)) (c : Z) : bool :=
  existsb (fun r => (fst r <=? c) && (c <=? snd r)) t.

(** unicode.c:114-166 range1 *)
Definition ident_range1 : list (Z * Z) := [
  (95, 95); (97, 122); (65, 90); (36, 36);
  (0x00A8, 0x00A8); (0x00AA, 0x00AA); (0x00AD, 0x00AD); (0x00AF, 0x00AF);
  (0x00B2, 0x00B5); (0x00B7, 0x00BA); (0x00BC, 0x00BE); (0x00C0, 0x00D6);
  (0x00D8, 0x00F6); (0x00F8, 0x00FF); (0x0100, 0x02FF); (0x0370, 0x167F);
  (0x1681, 0x180D); (0x180F, 0x1DBF); (0x1E00, 0x1FFF); (0x200B, 0x200D);
  (0x202A, 0x202E); (0x203F, 0x2040); (0x2054, 0x2054); (0x2060, 0x206F);
  (0x2070, 0x20CF); (0x2100, 0x218F); (0x2460, 0x24FF); (0x2776, 0x2793);
  (0x2C00, 0x2DFF); (0x2E80, 0x2FFF); (0x3004, 0x3007); (0x3021, 0x302F);
  (0x3031, 0x303F); (0x3040, 0xD7FF); (0xF900, 0xFD3D); (0xFD40, 0xFDCF);
  (0xFDF0, 0xFE1F); (0xFE30, 0xFE44); (0xFE47, 0xFFFD); (0x10000, 0x1FFFD);
  (0x20000, 0x2FFFD); (0x30000, 0x3FFFD); (0x40000, 0x4FFFD); (0x50000, 0x5FFFD);
  (0x60000, 0x6FFFD); (0x70000, 0x7FFFD); (0x80000, 0x8FFFD); (0x90000, 0x9FFFD);
  (0xA0000, 0xAFFFD); (0xB0000, 0xBFFFD); (0xC0000, 0xCFFFD); (0xD0000, 0xDFFFD);
  (0xE0000, 0xEFFFD)].

(** unicode.c:176-184 range2 *)
Definition ident_range2 : list (Z * Z) := [
  (48, 57); (0x0300, 0x036F); (0x1DC0, 0x1DFF); (0x20D0, 0x20FF); (0xFE20, 0xFE2F)].

(** unicode.c:112-170 is_ident1, unicode.c:174-188 is_ident2 *)
Definition is_ident1 (c : Z) : bool := in_range ident_range1 c.
Definition is_ident2 (c : Z) : bool := is_ident1 c || in_range ident_range2 c.
