(** Which texts are spelled by which lexical elements (C11 6.4): comments and white space,
    identifiers, pp-numbers, punctuators, string literals and character constants. *)
From Verif Require Import Base UnicodeModel LexModel LexSpec LitSpec.
Local Notation length := List.length.

(** A lexical element: its kind and text, the value of a character constant, the width of
    the type of a literal, the elements of a string with the terminator *)
Record element := Element { e_kind : tkind; e_text : bytes; e_val : Z; e_bits : Z; e_str : list Z }.

Definition starts (p q : bytes) : Prop := exists r, p = q ++ r.
(** A literal, with its prefix, stands here *)
Definition literal_here (p : bytes) : Prop :=
  exists q, In q (map bs ["u8"""; "u"""; "U"""; "L"""; "L'"; "u'"; "U'"]%string) /\ starts p q.
Definition comment_here (p : bytes) : Prop := starts p (bs "//") \/ starts p (bs "/*").
Definition number_here (p : bytes) : Prop := exists d r, p = 46 :: d :: r /\ isdigit d = true.

(** Character constants (6.4.4.4): an unprefixed one has the value of a char (signed, 8 bits)
    converted to int, u: char16_t, U and L: the value itself *)
Definition char_value (pre : bytes) (v : Z) : option (Z * Z) :=
  if beq pre [] then Some (32, (v + 128) mod 256 - 128)
  else if beq pre (bs "L") || beq pre (bs "U") then Some (32, v)
  else if beq pre (bs "u") then Some (16, v mod 2 ^ 16)
  else None.

(** [element_at w rest e]: with [rest] after it, the text [w] is the element [e] *)
Inductive element_at : bytes -> bytes -> element -> Prop :=
  | at_ident w rest : ident_at (w ++ rest) (length w) -> ~ literal_here (w ++ rest) ->
      element_at w rest (Element TK_IDENT w 0 0 [])
  | at_number w rest : ppnum_at (w ++ rest) (length w) -> element_at w rest (Element TK_PP_NUM w 0 0 [])
  | at_punct w rest : In w punctuators -> (forall q, In q punctuators -> starts (w ++ rest) q -> (length q <= length w)%nat) ->
      ~ comment_here (w ++ rest) -> ~ number_here (w ++ rest) ->
      element_at w rest (Element TK_PUNCT w 0 0 [])
  | at_other c rest : In c (bs "@`\") -> element_at [c] rest (Element TK_PUNCT [c] 0 0 [])
  | at_string pre bits src v rest : In (pre, bits) string_prefixes -> body bits src v ->
      element_at (pre ++ 34 :: src ++ [34]) rest (Element TK_STR (pre ++ 34 :: src ++ [34]) 0 bits (v ++ [0]))
  | at_char pre bits src v x rest : char_value pre v = Some (bits, x) -> char_body src v ->
      element_at (pre ++ 39 :: src ++ [39]) rest (Element TK_NUM (pre ++ 39 :: src ++ [39]) x bits []).

(** [spells s l]: white space and comments, an element, white space and comments, ... *)
Inductive spells : bytes -> list element -> Prop :=
  | sp_end g : gap_ok g [] -> spells (gap_bytes g) []
  | sp_element g w rest e l : gap_ok g (w ++ rest) -> element_at w rest e -> spells rest l ->
      spells (gap_bytes g ++ w ++ rest) (e :: l).

(** What the tokenizer says of a token of the text [s] *)
Definition element_of (s : bytes) (t : token) : element := Element (kind t) (lexeme_of s t) (tval t) (tbits t) (tstr t).
Definition eof_element : element := Element TK_EOF [] 0 0 [].

(** Elements that can stand alone: with white space after it, each is read back *)
Definition letter (c : Z) : bool := isalpha c || (c =? 95).
Inductive alone : element -> Prop :=
  | al_ident c w : letter c = true -> forallb (fun x => letter x || isdigit x) w = true -> alone (Element TK_IDENT (c :: w) 0 0 [])
  | al_number w : ppnum_at w (length w) -> alone (Element TK_PP_NUM w 0 0 [])
  | al_punct w : In w punctuators -> alone (Element TK_PUNCT w 0 0 [])
  | al_string pre bits src v : In (pre, bits) string_prefixes -> body bits src v ->
      alone (Element TK_STR (pre ++ 34 :: src ++ [34]) 0 bits (v ++ [0]))
  | al_char pre bits src v x : char_value pre v = Some (bits, x) -> char_body src v ->
      alone (Element TK_NUM (pre ++ 39 :: src ++ [39]) x bits []).
Definition spaced (l : list element) : bytes := flat_map (fun e => e_text e ++ [32]) l ++ [10].
