(** Literals of C, independent of the model. *)
From Verif Require Import Base UnicodeSpec TextSpec.
Local Notation length := List.length.

(** ** Integer literals (C11 6.4.4.1) *)
Inductive cint := c_int | c_uint | c_long | c_ulong.  (* LP64; long long = long *)

Definition type_max (t : cint) : Z :=
  match t with c_int => 2^31 - 1 | c_uint => 2^32 - 1 | c_long => 2^63 - 1 | c_ulong => 2^64 - 1 end.

(** The first type of the list that can represent the value. *)
Fixpoint first_fit (l : list cint) (v : Z) : option cint :=
  match l with
  | [] => None
  | t :: r => if v <=? type_max t then Some t else first_fit r v
  end.

(** The candidates by base and suffix; [l] covers l, L, ll, LL. *)
Definition candidates (decimal l u : bool) : list cint :=
  match l, u with
  | true, true => [c_ulong]
  | false, true => [c_uint; c_ulong]
  | true, false => if decimal then [c_long] else [c_long; c_ulong]
  | false, false => if decimal then [c_int; c_long] else [c_int; c_uint; c_long; c_ulong]
  end.

(** Digit strings. *)
Definition dec_digit (c : Z) : option Z := if (48 <=? c) && (c <=? 57) then Some (c - 48) else None.
Definition oct_digit (c : Z) : option Z := if (48 <=? c) && (c <=? 55) then Some (c - 48) else None.
Definition bin_digit (c : Z) : option Z := if (48 <=? c) && (c <=? 49) then Some (c - 48) else None.

Fixpoint numeral (dig : Z -> option Z) (base : Z) (acc : Z) (s : bytes) : option Z :=
  match s with
  | [] => Some acc
  | c :: r => match dig c with Some d => numeral dig base (acc * base + d) r | None => None end
  end.

(** [int_const body decimal v]: prefix and digits, with their value. *)
Inductive int_const : bytes -> bool -> Z -> Prop :=
  | ic_dec c ds v : c <> 48 -> numeral dec_digit 10 0 (c :: ds) = Some v -> int_const (c :: ds) true v
  | ic_oct ds v : numeral oct_digit 8 0 ds = Some v -> int_const (48 :: ds) false v
  | ic_hex x c ds v : x = 120 \/ x = 88 -> numeral hex_digit 16 0 (c :: ds) = Some v ->
      int_const (48 :: x :: c :: ds) false v
  | ic_bin x c ds v : x = 98 \/ x = 66 -> numeral bin_digit 2 0 (c :: ds) = Some v ->
      int_const (48 :: x :: c :: ds) false v.

(** Suffixes: one of u U, one of l L ll LL, in either order, both optional. *)
Definition u_suffixes : list bytes := [bs "u"; bs "U"].
Definition l_suffixes : list bytes := [bs "l"; bs "L"; bs "ll"; bs "LL"].
Inductive suffix : bytes -> bool -> bool -> Prop :=
  | sf_none : suffix [] false false
  | sf_u a : In a u_suffixes -> suffix a false true
  | sf_l b : In b l_suffixes -> suffix b true false
  | sf_ul a b : In a u_suffixes -> In b l_suffixes -> suffix (a ++ b) true true
  | sf_lu a b : In a u_suffixes -> In b l_suffixes -> suffix (b ++ a) true true.

(** ** String literals: source characters and escapes (C11 6.4.4.4, 6.4.5) *)
Definition simple_escape (c : Z) : option Z :=
  if c =? 39 then Some 39 else if c =? 34 then Some 34 else if c =? 63 then Some 63
  else if c =? 92 then Some 92 else if c =? 97 then Some 7 else if c =? 98 then Some 8
  else if c =? 102 then Some 12 else if c =? 110 then Some 10 else if c =? 114 then Some 13
  else if c =? 116 then Some 9 else if c =? 118 then Some 11
  else if c =? 101 then Some 27 (* GNU *) else None.

Definition starts_oct (r : bytes) : Prop := exists c t d, r = c :: t /\ oct_digit c = Some d.
Definition starts_hex (r : bytes) : Prop := exists c t d, r = c :: t /\ hex_digit c = Some d.

(** Elements of one unescaped character in an array of [bits]-wide elements:
    the source bytes themselves, UTF-16, or UTF-32. *)
Definition encode_elem (bits : Z) (c : Z) : list Z :=
  if bits =? 16 then utf16_of c else [c].

(** [body bits src v]: the text [src] between the quotes denotes the elements
    [v] (without terminator). Numeric escapes are reduced to the element width. *)
Inductive body (bits : Z) : bytes -> list Z -> Prop :=
  | body_nil : body bits [] []
  | body_byte b r v : bits = 8 -> 0 < b < 256 -> b <> 34 -> b <> 92 -> b <> 10 ->
      body bits r v -> body bits (b :: r) (b :: v)
  | body_char c r v : bits = 16 \/ bits = 32 -> is_scalar c -> c <> 0 -> c <> 34 -> c <> 92 -> c <> 10 ->
      body bits r v -> body bits (utf8_of c ++ r) (encode_elem bits c ++ v)
  | body_simple c x r v : simple_escape c = Some x -> body bits r v -> body bits (92 :: c :: r) (x :: v)
  | body_oct ds x r v : (1 <= length ds <= 3)%nat -> numeral oct_digit 8 0 ds = Some x ->
      (length ds = 3%nat \/ ~ starts_oct r) -> body bits r v -> body bits (92 :: ds ++ r) (x mod 2^bits :: v)
  | body_hex ds x r v : ds <> [] -> numeral hex_digit 16 0 ds = Some x -> ~ starts_hex r ->
      body bits r v -> body bits (92 :: 120 :: ds ++ r) (x mod 2^bits :: v).

(** One character of a character constant. *)
Inductive char_body : bytes -> Z -> Prop :=
  | cb_char c : is_scalar c -> c <> 0 -> c <> 39 -> c <> 92 -> c <> 10 -> char_body (utf8_of c) c
  | cb_simple c x : simple_escape c = Some x -> char_body [92; c] x
  | cb_oct ds x : (1 <= length ds <= 3)%nat -> numeral oct_digit 8 0 ds = Some x -> char_body (92 :: ds) x
  | cb_hex ds x : ds <> [] -> numeral hex_digit 16 0 ds = Some x -> x < 2^31 -> char_body (92 :: 120 :: ds) x.

(** Encoding prefixes of string literals, u8 excepted. *)
Inductive prefix := p_none | p_u | p_U | p_L.
Definition prefix_bytes (p : prefix) : bytes :=
  match p with p_none => [] | p_u => [117] | p_U => [85] | p_L => [76] end.
Definition prefix_bits (p : prefix) : Z :=
  match p with p_none => 8 | p_u => 16 | p_U => 32 | p_L => 32 end.

(** C11 6.4.5p5: the encoding of a concatenation; None if the prefixes differ. *)
Definition prefix_eqb (a b : prefix) : bool :=
  match a, b with p_none, p_none | p_u, p_u | p_U, p_U | p_L, p_L => true | _, _ => false end.
Definition join_prefix (a b : prefix) : option prefix :=
  if prefix_eqb a p_none then Some b
  else if prefix_eqb b p_none then Some a
  else if prefix_eqb a b then Some a else None.
Fixpoint join_prefixes (a : prefix) (l : list prefix) : option prefix :=
  match l with
  | [] => Some a
  | b :: r => match join_prefix a b with Some c => join_prefixes c r | None => None end
  end.

(** Little-endian memory image of an array of unsigned elements. *)
Fixpoint le_image (n : nat) (v : Z) : bytes :=
  match n with O => [] | S n' => v mod 256 :: le_image n' (v / 256) end.
Definition array_image (bits : Z) (l : list Z) : bytes :=
  flat_map (le_image (Z.to_nat (bits / 8))) l.

(** A string literal in the source: prefix, text between the quotes, text after it. *)
Record literal := Literal { l_prefix : prefix; l_src : bytes; l_after : bytes }.
Definition literal_text (l : literal) : bytes :=
  prefix_bytes (l_prefix l) ++ 34 :: l_src l ++ 34 :: l_after l.

(** The prefixes of string literals and the width of their elements. *)
Definition string_prefixes : list (bytes * Z) :=
  [([], 8); (bs "u8", 8); (bs "u", 16); (bs "U", 32); (bs "L", 32)].
