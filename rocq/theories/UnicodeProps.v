(** C04: the UTF-8 codec. *)
From Verif Require Import Base UnicodeModel UnicodeSpec UnicodeProofs.

(** The encoder produces the RFC 3629 byte sequence of every code point (and
    of every 21-bit number). *)
Theorem C04_encode_is_rfc3629 : forall c, 0 <= c < 0x200000 -> encode_utf8 c = utf8_of c.
Proof. exact encode_is_utf8. Qed.
Print Assumptions C04_encode_is_rfc3629.

(** Decoding inverts encoding, whatever follows. *)
Theorem C04_utf8_round_trip : forall c rest, 0 <= c < 0x200000 ->
  decode_utf8 (encode_utf8 c ++ rest) = Some (c, List.length (encode_utf8 c)).
Proof. exact decode_encode. Qed.
Print Assumptions C04_utf8_round_trip.

(** Encodings are distinct and prefix-free. *)
Theorem C04_utf8_prefix_free : forall c1 c2 r1 r2,
  0 <= c1 < 0x200000 -> 0 <= c2 < 0x200000 ->
  encode_utf8 c1 ++ r1 = encode_utf8 c2 ++ r2 -> c1 = c2 /\ r1 = r2.
Proof. exact encode_prefix_free. Qed.
Print Assumptions C04_utf8_prefix_free.

(** On a NUL-terminated buffer the decoder never reads or skips past the
    terminator, and multi-byte results consist of continuation bytes. *)
Theorem C04_decode_stays_in_buffer : forall p c n,
  (forall b, In b p -> is_byte b /\ b <> 0) -> p <> [] -> decode_utf8 p = Some (c, n) ->
  (1 <= n <= List.length p)%nat /\
  (forall j, (1 <= j < n)%nat -> continuation (nth j p 0)) /\
  (n = 1%nat -> c = nth 0 p 0 /\ c < 128).
Proof. exact decode_in_bounds. Qed.
Print Assumptions C04_decode_stays_in_buffer.

(** Finding: the decoder accepts ill-formed UTF-8; e.g. the overlong pair
    C0 AF decodes to '/', so two different byte strings denote one character. *)
Theorem C04_decode_strict_refuted :
  exists p c, (forall b, In b p -> is_byte b /\ b <> 0) /\
    decode_utf8 p = Some (c, List.length p) /\ 0 <= c <= scalar_max /\ p <> utf8_of c.
Proof.
  exists [0xC0; 0xAF], 47. split; [|split; [|split]].
  - intros b [<-|[<-|[]]]; unfold is_byte; lia.
  - vm_compute. reflexivity.
  - unfold scalar_max; lia.
  - vm_compute. discriminate.
Qed.
Print Assumptions C04_decode_strict_refuted.

Example C04_euro : encode_utf8 0x20AC = [0xE2; 0x82; 0xAC] /\
  decode_utf8 ([0xE2; 0x82; 0xAC] ++ [65]) = Some (0x20AC, 3%nat).
Proof. split; vm_compute; reflexivity. Qed.
