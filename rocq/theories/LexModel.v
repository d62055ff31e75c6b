(** Model of the tokenizer, /repo/tokenize.c:46-727, and of quote_string,
    join_tokens and join_adjacent_string_literals of
    /repo/preprocessor/preprocess.c.

    A pointer into a NUL-terminated buffer is the list of the bytes from it up
    to the NUL (excluded): [] means that the pointer is at the NUL. Bytes are
    0..255; ctype predicates are those of the C locale, false on bytes over 127
    (the C code passes a possibly negative char, which glibc accepts). *)
From Verif Require Import Base UnicodeModel TextModel.

(** [LErr]: error_at/error_tok, the compiler exits with a diagnostic;
    [LOOB]: a read past the NUL or a write past an allocation;
    [LFuel]: the fuel of the model ran out. *)
Inductive lres (A : Type) := LOk (a : A) | LErr | LOOB | LFuel.
Arguments LOk {A} a.
Arguments LErr {A}.
Arguments LOOB {A}.
Arguments LFuel {A}.

Definition lbind {A B} (x : lres A) (f : A -> lres B) : lres B :=
  match x with LOk a => f a | LErr => LErr | LOOB => LOOB | LFuel => LFuel end.

(** ctype.h *)
Definition isdigit (c : Z) : bool := (48 <=? c) && (c <=? 57).
Definition isalpha (c : Z) : bool := ((65 <=? c) && (c <=? 90)) || ((97 <=? c) && (c <=? 122)).
Definition isalnum (c : Z) : bool := isdigit c || isalpha c.
Definition isspace (c : Z) : bool := ((9 <=? c) && (c <=? 13)) || (c =? 32).
Definition ispunct (c : Z) : bool := (33 <=? c) && (c <=? 126) && negb (isalnum c).

(** tokenize.c:63-66 startwith *)
Definition startwith (p q : bytes) : bool := is_prefix q p.

(** tokenize.c:71-95 the table of read_punct *)
Definition kw : list bytes := map bs [
  "<<="; ">>="; "..."; "=="; "!="; "<="; ">="; "->"; "+="; "-="; "*="; "/=";
  "++"; "--"; "%="; "&="; "|="; "^="; "&&"; "||"; "<<"; ">>"; "##"]%string.

(** tokenize.c:97-102 *)
Definition read_punct (p : bytes) : nat :=
  match find (startwith p) kw with
  | Some k => List.length k
  | None => if ispunct (at_ p 0) then 1%nat else 0%nat
  end.

(** tokenize.c:114-120, the loop of read_ident; counts the bytes passed. *)
Fixpoint ident_loop (fuel : nat) (p : bytes) (n : nat) : lres nat :=
  match fuel with
  | O => LFuel
  | S f =>
      match decode_utf8 p with
      | None => LErr
      | Some (c, k) => if is_ident2 c then ident_loop f (skipn k p) (n + k) else LOk n
      end
  end.

(** tokenize.c:107-121 read_ident *)
Definition read_ident (p : bytes) : lres nat :=
  match decode_utf8 p with
  | None => LErr
  | Some (c, k) => if is_ident1 c then ident_loop (S (List.length p)) (skipn k p) k else LOk 0%nat
  end.

(** tokenize.c:182-190 isodigit, from_oct *)
Definition isodigit (c : Z) : bool := (48 <=? c) && (c <=? 55).
Definition from_oct (c : Z) : Z := c - 48.

(** Value of a 32-bit int after wrap-around. *)
Definition int32 (z : Z) : Z := (z + 2^31) mod 2^32 - 2^31.

(** tokenize.c:207-208: at most [n] octal digits *)
Fixpoint oct_loop (n : nat) (p : bytes) (c : Z) : Z * bytes :=
  match n, p with
  | S n', d :: r => if isodigit d then oct_loop n' r (Z.shiftl c 3 + from_oct d) else (c, p)
  | _, _ => (c, p)
  end.

(** tokenize.c:220-221: all the hexadecimal digits. The C code has signed
    overflow when there are more than 7 significant digits; the model wraps. *)
Fixpoint hex_loop (p : bytes) (c : Z) : Z * bytes :=
  match p with
  | d :: r => if isxdigit d then hex_loop r (int32 (Z.shiftl c 4 + from_hex d)) else (c, p)
  | [] => (c, [])
  end.

(** tokenize.c:201-248 read_escaped_char: value and new position. With p at the
    NUL the new position is past it. *)
Definition read_escaped_char (p : bytes) : lres (Z * bytes) :=
  match p with
  | [] => LOOB
  | c :: r =>
      if isodigit c then LOk (oct_loop 3 p 0)
      else if c =? 120 then
        if isxdigit (at_ r 0) then LOk (hex_loop r 0) else LErr
      else
        let v :=
          if c =? 97 then 7 else if c =? 98 then 8 else if c =? 116 then 9
          else if c =? 110 then 10 else if c =? 118 then 11 else if c =? 102 then 12
          else if c =? 114 then 13 else if c =? 101 then 27
          else if c <? 128 then c else c - 256 (* plain char is signed *) in
        LOk (v, r)
  end.

(** tokenize.c:251-265 string_literal_end: distance to the closing quote. *)
Fixpoint string_literal_end (p : bytes) : lres nat :=
  match p with
  | [] => LErr
  | c :: r =>
      if c =? 34 then LOk 0%nat
      else if c =? 10 then LErr
      else if c =? 92 then
        match r with
        | [] => LOOB
        | _ :: r' => lbind (string_literal_end r') (fun n => LOk (S (S n)))
        end
      else lbind (string_literal_end r) (fun n => LOk (S n))
  end.

(** Encoding of the element(s) stored for one unescaped source character:
    tokenize.c:280 (char), 313-326 (UTF-16), 352 (UTF-32); [bits] is the width
    of the array element; also returns the bytes consumed. *)
Definition store_plain (bits : Z) (p : bytes) : lres (list Z * bytes) :=
  if bits =? 8 then LOk ([at_ p 0], skipn 1 p)
  else
    match decode_utf8 p with
    | None => LErr
    | Some (c, k) =>
        if bits =? 16 then
          if c <? 0x10000 then LOk ([c], skipn k p)
          else
            let c' := c - 0x10000 in
            LOk ([0xd800 + Z.land (Z.shiftr c' 10) 0x3ff; 0xdc00 + Z.land c' 0x3ff], skipn k p)
        else LOk ([c], skipn k p)
    end.

(** tokenize.c:276-281, 311-327, 350-354: while (p < end); [rem] is end - p.
    Array elements are stored modulo 2^bits. *)
Fixpoint string_loop (fuel : nat) (bits : Z) (p : bytes) (rem : nat) : lres (list Z) :=
  match rem with
  | O => LOk []
  | S _ =>
      match fuel with
      | O => LFuel
      | S f =>
          lbind (match p with
                 | 92 :: r => lbind (read_escaped_char r) (fun vr => LOk ([fst vr mod 2^bits], snd vr))
                 | _ => store_plain bits p
                 end)
                (fun er =>
                   let used := (List.length p - List.length (snd er))%nat in
                   lbind (string_loop f bits (snd er) (rem - used)) (fun l => LOk (fst er ++ l)))
      end
  end.

(** tokenize.c:268-289, 300-333, 341-361: the array contents including the
    terminator, and the distance from the character after the opening quote to
    the closing quote. [p] starts after the opening quote. *)
Definition read_string (bits : Z) (p : bytes) : lres (list Z * nat) :=
  lbind (string_literal_end p) (fun n =>
  lbind (string_loop (S n) bits p n) (fun l => LOk (l ++ [0], n))).

(** strchr(p, c): distance, NULL as None *)
Fixpoint strchr (p : bytes) (c : Z) : option nat :=
  match p with
  | [] => None
  | x :: r => if x =? c then Some 0%nat else option_map S (strchr r c)
  end.

(** strstr(p, "*/"): distance *)
Fixpoint find_comment_end (p : bytes) : option nat :=
  match p with
  | [] => None
  | x :: r => if startwith p [42; 47] then Some 0%nat else option_map S (find_comment_end r)
  end.

(** tokenize.c:393-416 read_char_literal; [p] starts after the opening quote.
    Value and distance from there to the closing quote. *)
Definition read_char_literal (p : bytes) : lres (Z * nat) :=
  match p with
  | [] => LErr
  | c :: r =>
      lbind (if c =? 92 then read_escaped_char r
             else match decode_utf8 p with
                  | None => LErr
                  | Some (c', k) => LOk (c', skipn k p)
                  end)
            (fun vr =>
               match strchr (snd vr) 39 with
               | None => LErr
               | Some n => LOk (fst vr, ((List.length p - List.length (snd vr)) + n)%nat)
               end)
  end.

(** tokenize.c:607-616: length of the rest of a pp-number *)
Fixpoint ppnum_loop (fuel : nat) (p : bytes) : nat :=
  match fuel with
  | O => O
  | S f =>
      match p with
      | [] => O
      | c :: r =>
          if (negb (at_ r 0 =? 0)) &&
             existsb (Z.eqb c) [101; 69; 112; 80] && existsb (Z.eqb (at_ r 0)) [43; 45]
          then S (S (ppnum_loop f (skipn 1 r)))
          else if isalnum c || (c =? 46) then S (ppnum_loop f r)
          else O
      end
  end.

(** toycc.h TokenKind (the kinds the tokenizer makes); element types of
    literals are given by their width. *)
Inductive tkind := TK_IDENT | TK_PUNCT | TK_STR | TK_NUM | TK_PP_NUM | TK_EOF.
Record token := Tok {
  kind : tkind;
  loc : nat;          (* offset of tok->loc in the file *)
  tlen : nat;
  at_bol : bool;
  has_space : bool;
  line_no : nat;
  tval : Z;           (* TK_NUM *)
  tbits : Z;          (* width of the type of a literal *)
  tstr : list Z;      (* TK_STR: array contents with terminator *)
}.

(** tokenize.c:572-574: p += 2; while ( *p != '\n') p++; *)
Fixpoint skip_line_comment (p : bytes) : lres nat :=
  match p with
  | [] => LOOB
  | c :: r => if c =? 10 then LOk 0%nat else lbind (skip_line_comment r) (fun n => LOk (S n))
  end.

(** (char)v, then tokenize.c:667-672: the __riscv fixup leaves values up to 127. *)
Definition to_char (v : Z) : Z := (v + 128) mod 256 - 128.

(** tokenize.c:553-727 tokenize; one unit of fuel per iteration of the while
    loop. [bol], [sp] are the static flags at_bol and has_space. *)
Fixpoint tokenize_loop (fuel : nat) (p : bytes) (pos : nat) (bol sp : bool) : lres (list token) :=
  match fuel with
  | O => LFuel
  | S f =>
      (* new_token (tokenize.c:46-61) and continue after it *)
      let emit k n v b s :=
        lbind (tokenize_loop f (skipn n p) (pos + n) false false)
              (fun ts => LOk (Tok k pos n bol sp 0 v b s :: ts)) in
      let str pre bits :=
        lbind (read_string bits (skipn (S pre) p)) (fun ln => emit TK_STR (S pre + snd ln + 1)%nat 0 bits (fst ln)) in
      let chr pre bits conv :=
        lbind (read_char_literal (skipn (S pre) p)) (fun vn => emit TK_NUM (S pre + snd vn + 1)%nat (conv (fst vn)) bits []) in
      match p with
      | [] => LOk [Tok TK_EOF pos 0 bol sp 0 0 0 []]
      | c :: r =>
          if startwith p [47; 47] then
            lbind (skip_line_comment (skipn 2 p)) (fun n =>
              tokenize_loop f (skipn (2 + n) p) (pos + (2 + n)) bol true)
          else if startwith p [47; 42] then
            match find_comment_end (skipn 2 p) with
            | None => LErr
            | Some n => tokenize_loop f (skipn (2 + n + 2) p) (pos + (2 + n + 2)) bol true
            end
          else if c =? 10 then tokenize_loop f r (pos + 1) true false
          else if isspace c then tokenize_loop f r (pos + 1) bol true
          else if isdigit c || ((c =? 46) && isdigit (at_ r 0)) then
            emit TK_PP_NUM (S (ppnum_loop (S (List.length r)) r)) 0 0 []
          else if c =? 34 then str 0%nat 8
          else if startwith p [117; 56; 34] then str 2%nat 8
          else if startwith p [117; 34] then str 1%nat 16
          else if startwith p [85; 34] then str 1%nat 32
          else if startwith p [76; 34] then str 1%nat 32
          else if c =? 39 then chr 0%nat 32 to_char
          else if startwith p [76; 39] then chr 1%nat 32 (fun v => v)
          else if startwith p [117; 39] then chr 1%nat 16 (fun v => v mod 2^16)
          else if startwith p [85; 39] then chr 1%nat 32 (fun v => v)
          else
            lbind (read_ident p) (fun n =>
              if (0 <? n)%nat then emit TK_IDENT n 0 0 []
              else
                let n := read_punct p in
                if (0 <? n)%nat then emit TK_PUNCT n 0 0 [] else LErr)
      end
  end.

(** tokenize.c:377-391 add_line_number: [p] from the current position [pos]
    with line counter [n]; tokens not yet numbered. *)
Definition set_line (t : token) (n : nat) : token :=
  Tok (kind t) (loc t) (tlen t) (at_bol t) (has_space t) n (tval t) (tbits t) (tstr t).

Fixpoint add_line_number (p : bytes) (pos n : nat) (toks : list token) : list token :=
  let number rest :=
    match toks with
    | t :: ts => if (loc t =? pos)%nat then set_line t n :: rest ts else rest toks
    | [] => rest []
    end in
  match p with
  | [] => number (fun ts => ts)
  | c :: r => number (fun ts => add_line_number r (S pos) (if c =? 10 then S n else n) ts)
  end.

(** tokenize.c:553-727 *)
Definition tokenize (contents : bytes) : lres (list token) :=
  lbind (tokenize_loop (S (List.length contents)) contents 0 true false)
        (fun ts => LOk (add_line_number contents 0 1 ts)).
