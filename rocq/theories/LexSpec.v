(** Lexical structure of C, independent of the tokenizer. Only the ctype
    classes, the identifier tables and the UTF-8 decoder are shared. *)
From Verif Require Import Base UnicodeModel LexModel.
Local Notation length := List.length.

(** A source text: bytes other than NUL. *)
Definition source (s : bytes) : Prop := forall b, In b s -> is_byte b /\ b <> 0.

(** What may stand between tokens. *)
Inductive blank :=
  | Newline
  | Space (c : Z)
  | LineComment (body : bytes)
  | BlockComment (body : bytes).

Definition blank_bytes (b : blank) : bytes :=
  match b with
  | Newline => [10]
  | Space c => [c]
  | LineComment body => [47; 47] ++ body
  | BlockComment body => [47; 42] ++ body ++ [42; 47]
  end.

(** A line comment extends to the end of the line; a block comment ends at the
    first star-slash. *)
Definition blank_ok (b : blank) (rest : bytes) : Prop :=
  match b with
  | Newline => True
  | Space c => isspace c = true /\ c <> 10
  | LineComment body => ~ In 10 body /\ exists r, rest = 10 :: r
  | BlockComment body => forall a b, body ++ [42] <> a ++ [42; 47] ++ b
  end.

Definition gap_bytes (g : list blank) : bytes := flat_map blank_bytes g.

Fixpoint gap_ok (g : list blank) (rest : bytes) : Prop :=
  match g with
  | [] => True
  | b :: g' => blank_ok b (gap_bytes g' ++ rest) /\ gap_ok g' rest
  end.

(** The part of a gap after its last newline. *)
Definition is_newline (b : blank) : bool := match b with Newline => true | _ => false end.
Fixpoint last_line (g : list blank) : list blank :=
  match g with
  | [] => []
  | b :: g' => if existsb is_newline g' then last_line g'
               else if is_newline b then g' else b :: g'
  end.

Definition nonempty {A} (l : list A) : bool := match l with [] => false | _ => true end.

(** [tiles s pos first toks]: the text [s], starting at offset [pos], is a
    sequence gap, token, gap, token, ..., gap, end of file. [first] tells
    whether [s] is at the beginning of a line. *)
Inductive tiles : bytes -> nat -> bool -> list token -> Prop :=
  | tiles_eof g pos first t :
      gap_ok g [] ->
      kind t = TK_EOF -> loc t = (pos + length (gap_bytes g))%nat -> tlen t = 0%nat ->
      at_bol t = (first || existsb is_newline g)%bool ->
      has_space t = nonempty (last_line g) ->
      tiles (gap_bytes g) pos first [t]
  | tiles_cons g pos first lexeme rest t toks :
      gap_ok g (lexeme ++ rest) ->
      lexeme <> [] -> kind t <> TK_EOF ->
      loc t = (pos + length (gap_bytes g))%nat -> tlen t = length lexeme ->
      at_bol t = (first || existsb is_newline g)%bool ->
      has_space t = nonempty (last_line g) ->
      tiles rest (pos + length (gap_bytes g) + length lexeme)%nat false toks ->
      tiles (gap_bytes g ++ lexeme ++ rest) pos first (t :: toks).

(** The punctuators of C11 6.4.6 (without digraphs). *)
Definition punctuators : list bytes := map bs [
  "["; "]"; "("; ")"; "{"; "}"; "."; "->"; "++"; "--"; "&"; "*"; "+"; "-"; "~"; "!";
  "/"; "%"; "<<"; ">>"; "<"; ">"; "<="; ">="; "=="; "!="; "^"; "|"; "&&"; "||";
  "?"; ":"; ";"; "..."; "="; "*="; "/="; "%="; "+="; "-="; "<<="; ">>="; "&="; "^=";
  "|="; ","; "#"; "##"]%string.

(** [ident_run p n]: the first [n] bytes of [p] are identifier characters and
    the next character is not one. *)
Inductive ident_run : bytes -> nat -> Prop :=
  | run_stop p c k : decode_utf8 p = Some (c, k) -> is_ident2 c = false -> ident_run p 0
  | run_more p c k n : decode_utf8 p = Some (c, k) -> is_ident2 c = true ->
      ident_run (skipn k p) n -> ident_run p (k + n).

(** [ident_at p n]: an identifier of [n] bytes starts at [p] and is maximal. *)
Definition ident_at (p : bytes) (len : nat) : Prop :=
  exists c k n, decode_utf8 p = Some (c, k) /\ is_ident1 c = true /\ ident_run (skipn k p) n /\ len = (k + n)%nat.

(** [punct_at p n]: the first [n] bytes of [p] are a punctuator of C (or a
    single stray punctuation character), and no longer punctuator fits. *)
Definition punct_at (p : bytes) (n : nat) : Prop :=
  (In (firstn n p) punctuators \/ (n = 1%nat /\ ispunct (nth 0 p 0) = true)) /\
  forall q r, In q punctuators -> p = q ++ r -> (length q <= n)%nat.

(** pp-numbers, C11 6.4.8, restricted to ASCII letters (no underscore). *)
Definition exponent_mark (c : Z) : Prop := c = 101 \/ c = 69 \/ c = 112 \/ c = 80.
Definition sign_char (c : Z) : Prop := c = 43 \/ c = 45.

Inductive pp_run : bytes -> nat -> Prop :=
  | pp_sign e s r n : exponent_mark e -> sign_char s -> pp_run r n -> pp_run (e :: s :: r) (S (S n))
  | pp_char c r n : isalnum c = true \/ c = 46 ->
      ~ (exponent_mark c /\ exists s r', r = s :: r' /\ sign_char s) -> pp_run r n -> pp_run (c :: r) (S n)
  | pp_end : pp_run [] 0
  | pp_stop c r : isalnum c = false -> c <> 46 -> pp_run (c :: r) 0.

Definition ppnum_at (p : bytes) (n : nat) : Prop :=
  exists c r m, p = c :: r /\ (isdigit c = true \/ (c = 46 /\ isdigit (nth 0 r 0) = true)) /\ pp_run r m /\ n = S m.

(** Maximality of a token standing at [p], by kind. *)
Definition class_ok (p : bytes) (t : token) : Prop :=
  match kind t with
  | TK_PUNCT => punct_at p (tlen t)
  | TK_IDENT => ident_at p (tlen t)
  | TK_PP_NUM => ppnum_at p (tlen t)
  | _ => True
  end.

(** The source text of a token. *)
Definition lexeme_of (s : bytes) (t : token) : bytes := firstn (tlen t) (skipn (loc t) s).

Definition newlines (s : bytes) : nat := count_occ Z.eq_dec s 10.
