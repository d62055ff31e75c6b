(** Model of numeric literals (/repo/tokenize.c:418-501), stringizing
    (/repo/preprocessor/preprocess.c:441-504) and concatenation of adjacent
    string literals (preprocess.c:1187-1293). *)
From Verif Require Import Base UnicodeModel TextModel LexModel.

(** Value of a digit for strtoul; 99 for a character that is no digit. *)
Definition digit_val (c : Z) : Z :=
  if isdigit c then c - 48
  else if (97 <=? c) && (c <=? 122) then c - 97 + 10
  else if (65 <=? c) && (c <=? 90) then c - 65 + 10
  else 99.

(** The digits at [p] in [base], mathematical value, and the rest. *)
Fixpoint digits (base : Z) (p : bytes) (acc : Z) : Z * bytes :=
  match p with
  | c :: r => if digit_val c <? base then digits base r (acc * base + digit_val c) else (acc, p)
  | [] => (acc, [])
  end.

(** strtoul of glibc on a string that starts with a digit, a letter or a dot
    (white space and sign are not modelled: a pp-number has none here). Base 16
    skips a further 0x prefix; overflow gives ULONG_MAX. *)
Definition strtoul (base : Z) (p : bytes) : Z * bytes :=
  let p' := match p with
            | 48 :: x :: d :: _ =>
                if (base =? 16) && ((x =? 120) || (x =? 88)) && isxdigit d then skipn 2 p else p
            | _ => p
            end in
  let (v, r) := digits base p' 0 in
  (Z.min v (2^64 - 1), r).

Inductive ity := Int | UInt | Long | ULong.

(** (int64_t)v *)
Definition int64 (z : Z) : Z := (z + 2^63) mod 2^64 - 2^63.

(** strncasecmp(p, q, 2) == 0 for a lower case q *)
Definition lower (c : Z) : Z := if (65 <=? c) && (c <=? 90) then c + 32 else c.
Definition startcase2 (p q : bytes) : bool := is_prefix q (map lower (firstn 2 p)).

(** tokenize.c:439-468: the suffix: (l, u, rest) *)
Definition int_suffix (p : bytes) : bool * bool * bytes :=
  if startwith p (bs "LLU") || startwith p (bs "LLu") || startwith p (bs "llU") || startwith p (bs "llu") ||
     startwith p (bs "ULL") || startwith p (bs "Ull") || startwith p (bs "uLL") || startwith p (bs "ull")
  then (true, true, skipn 3 p)
  else if startcase2 p (bs "lu") || startcase2 p (bs "ul") then (true, true, skipn 2 p)
  else if startwith p (bs "LL") || startwith p (bs "ll") then (true, false, skipn 2 p)
  else if (at_ p 0 =? 76) || (at_ p 0 =? 108) then (true, false, skipn 1 p)
  else if (at_ p 0 =? 85) || (at_ p 0 =? 117) then (false, true, skipn 1 p)
  else (false, false, p).

(** tokenize.c:473-495: the type; [val] is an int64_t, >> is arithmetic. *)
Definition int_type (base : Z) (l u : bool) (val : Z) : ity :=
  let high k := negb (Z.shiftr val k =? 0) in
  if base =? 10 then
    if l && u then ULong
    else if l then Long
    else if u then (if high 32 then ULong else UInt)
    else (if high 31 then Long else Int)
  else
    if l && u then ULong
    else if l then (if high 63 then ULong else Long)
    else if u then (if high 32 then ULong else UInt)
    else if high 63 then ULong
    else if high 32 then Long
    else if high 31 then UInt
    else Int.

(** tokenize.c:418-501 convert_pp_int on a token at [p] of length [len];
    None is the return value false (the caller then tries strtold). *)
Definition convert_pp_int (p : bytes) (len : nat) : option (Z * ity) :=
  let '(base, p1) :=
    if startcase2 p (bs "0x") && isxdigit (at_ p 2) then (16, skipn 2 p)
    else if startcase2 p (bs "0b") && ((at_ p 2 =? 48) || (at_ p 2 =? 49)) then (2, skipn 2 p)
    else if at_ p 0 =? 48 then (8, p)
    else (10, p) in
  let (v, p2) := strtoul base p1 in
  let val := int64 v in
  let '(l, u, p3) := int_suffix p2 in
  if (List.length p - List.length p3 =? len)%nat then Some (val, int_type base l u val) else None.

(** preprocess.c:468-490 quote_string: the buffer without its NUL. *)
Definition quote_char (c : Z) : bytes := if (c =? 92) || (c =? 34) then [92; c] else [c].
Definition quote_string (s : bytes) : bytes := [34] ++ flat_map quote_char s ++ [34].

(** preprocess.c:441-465 join_tokens: [toks] is the list up to `end` or EOF,
    each token given by its spelling and its has_space flag. *)
Definition spelled := (bytes * bool)%type.
Definition join_tokens (toks : list spelled) : bytes :=
  match toks with
  | [] => []
  | (s, _) :: r => s ++ flat_map (fun t : spelled => (if snd t then [32] else []) ++ fst t) r
  end.

(** preprocess.c:497-505 stringize, the text given to the tokenizer. *)
Definition stringize (arg : list spelled) : bytes := quote_string (join_tokens arg).

(** ** Adjacent string literals *)
Inductive skind := STR_NONE | STR_UTF8 | STR_UTF16 | STR_UTF32 | STR_WIDE.
Definition skind_eqb (a b : skind) : bool :=
  match a, b with
  | STR_NONE, STR_NONE | STR_UTF8, STR_UTF8 | STR_UTF16, STR_UTF16 | STR_UTF32, STR_UTF32 | STR_WIDE, STR_WIDE => true
  | _, _ => false
  end.

(** A string token: text at tok->loc (to the end of its buffer), width of the
    array element, signedness of the element is not modelled; contents with
    terminator. *)
Record strtok := StrTok { s_loc : bytes; s_bits : Z; s_str : list Z }.

(** preprocess.c:1195-1212 getStringKind; None is unreachable(). strcmp
    compares the whole rest of the buffer with "u8". *)
Definition getStringKind (t : strtok) : option skind :=
  if beq (s_loc t) (bs "u8") then Some STR_UTF8
  else
    let c := at_ (s_loc t) 0 in
    if c =? 34 then Some STR_NONE else if c =? 117 then Some STR_UTF16
    else if c =? 85 then Some STR_UTF32 else if c =? 76 then Some STR_WIDE else None.

(** preprocess.c:1233-1246: the kind and element width of a run of literals. *)
Fixpoint common_kind (k : skind) (bits : Z) (l : list strtok) : lres (skind * Z) :=
  match l with
  | [] => LOk (k, bits)
  | t :: r =>
      match getStringKind t with
      | None => LOOB
      | Some k2 =>
          if skind_eqb k STR_NONE then common_kind k2 (s_bits t) r
          else if negb (skind_eqb k2 STR_NONE) && negb (skind_eqb k k2) then LErr
          else common_kind k bits r
      end
  end.

(** tokenize.c:363-374 tokenize_string_literal (an unprefixed literal, so the
    quote is the first character) and preprocess.c:1249-1255. *)
Definition widen (bits : Z) (t : strtok) : lres strtok :=
  if s_bits t =? 8 then
    lbind (read_string (if bits =? 16 then 16 else 32) (skipn 1 (s_loc t)))
          (fun ln => LOk (StrTok (s_loc t) bits (fst ln)))
  else LOk t.

Fixpoint widen_all (bits : Z) (l : list strtok) : lres (list strtok) :=
  match l with
  | [] => LOk []
  | t :: r => lbind (widen bits t) (fun t' => lbind (widen_all bits r) (fun r' => LOk (t' :: r')))
  end.

(** preprocess.c:1265-1292, one run tok1 .. tok2 of the second pass: the bytes
    of buf. memcpy(buf + i, t->str, t->ty->size); i += size - base size. Bytes
    are little endian. A memcpy past the end of buf is [LOOB]. *)
Fixpoint le_bytes (n : nat) (v : Z) : bytes :=
  match n with O => [] | S n' => v mod 256 :: le_bytes n' (v / 256) end.
Definition elems_bytes (bits : Z) (l : list Z) : bytes := flat_map (le_bytes (Z.to_nat (bits / 8))) l.

Fixpoint blit (buf : bytes) (i : nat) (src : bytes) : bytes :=
  match src with [] => buf | b :: r => blit (set_nth i b buf) (S i) r end.

Fixpoint concat_loop (buf : bytes) (i : nat) (l : list strtok) : lres bytes :=
  match l with
  | [] => LOk buf
  | t :: r =>
      let size := (List.length (s_str t) * Z.to_nat (s_bits t / 8))%nat in
      if (List.length buf <? i + size)%nat then LOOB
      else concat_loop (blit buf i (elems_bytes (s_bits t) (s_str t))) (i + (size - Z.to_nat (s_bits t / 8)))%nat r
  end.

(** preprocess.c:1277-1279: the length in elements *)
Definition concat_len (l : list strtok) : nat :=
  match l with
  | [] => 0%nat
  | t :: r => (List.length (s_str t) + fold_right (fun t n => (List.length (s_str t) - 1 + n)%nat) 0%nat r)%nat
  end.

(** preprocess.c:1216-1293 on one maximal run of at least two literals:
    element width, number of elements and bytes of the joined array. *)
Definition join_adjacent (l : list strtok) : lres (Z * nat * bytes) :=
  match l with
  | [] => LErr
  | t1 :: r =>
      match getStringKind t1 with
      | None => LOOB
      | Some k =>
          lbind (common_kind k (s_bits t1) r) (fun kb =>
          lbind (if 8 <? snd kb then widen_all (snd kb) l else LOk l) (fun l' =>
          match l' with
          | [] => LErr
          | t1' :: _ =>
              let n := concat_len l' in
              lbind (concat_loop (repeat 0 (Z.to_nat (s_bits t1' / 8) * n)) 0 l') (fun buf =>
              LOk (s_bits t1', n, buf))
          end))
      end
  end.
