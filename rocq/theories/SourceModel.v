(** Model of the way from the text of a file to the tokens of the parser:
    /repo/main.c:485-493 and 590-593, tokenize_file, preprocessor (preprocess.c:1296-1315), convert_pp_tokens
    (tokenize.c:542-550); the tokens are then those of ParseModel. *)
From Verif Require Import Base LexModel PpModel ParseModel.
Local Notation length := List.length.

(** tokenize.c:126-172 the keywords *)
Definition keywords : list bytes := map bs [
  "return"; "if"; "else"; "for"; "while"; "short"; "int"; "long"; "sizeof"; "char"; "struct"; "union"; "void"; "typedef"; "_Bool"; "enum";
  "static"; "goto"; "break"; "continue"; "switch"; "case"; "default"; "extern"; "_Alignof"; "_Alignas"; "do"; "signed"; "unsigned"; "const";
  "volatile"; "auto"; "register"; "restrict"; "__restrict"; "__restrict__"; "_Noreturn"; "float"; "double"; "typeof"; "asm"; "_Thread_local";
  "__thread"; "_Atomic"; "__attribute__"]%string.
(** tokenize.c:123-180 is_keyword; the table is a hash map (HashMapModel) *)
Definition is_keyword (w : bytes) : bool := existsb (beq w) keywords.

(** The parser compares tokens by their text, equal(tok, ...) (utils.c:14-17) *)
Definition puncts : list (bytes * punct) := [
  (bs "(", LPar); (bs ")", RPar); (bs "[", LBrk); (bs "]", RBrk); (bs "{", LBrace); (bs "}", RBrace); (bs "...", Ellipsis); (bs ".", Dot); (bs "->", Arrow); (bs "++", PlusPlus); (bs "--", MinusMinus);
  (bs "+", Plus); (bs "-", Minus); (bs "*", Star); (bs "&", Amp); (bs "!", Bang); (bs "~", Tilde); (bs "/", Slash); (bs "%", Percent);
  (bs "<<", LtLt); (bs ">>", GtGt); (bs "<", PLt); (bs "<=", PLe); (bs ">", PGt); (bs ">=", PGe); (bs "==", EqEq); (bs "!=", BangEq);
  (bs "^", Caret); (bs "|", Bar); (bs "&&", AmpAmp); (bs "||", BarBar); (bs "?", Quest); (bs ":", Colon); (bs ",", Comma); (bs ";", Semi);
  (bs "=", PEq); (bs "+=", PlusEq); (bs "-=", MinusEq); (bs "*=", StarEq); (bs "/=", SlashEq); (bs "%=", PercentEq);
  (bs "&=", AmpEq); (bs "|=", BarEq); (bs "^=", CaretEq); (bs "<<=", LtLtEq); (bs ">>=", GtGtEq)].
Definition words_of : list (bytes * tok) := [
  (bs "sizeof", KSizeof); (bs "_Alignof", KAlignof); (bs "_Generic", KGeneric); (bs "default", KDefault);
  (bs "__builtin_types_compatible_p", KCompat); (bs "__builtin_compare_and_swap", KCas); (bs "__builtin_atomic_exchange", KExch);
  (bs "return", KW WReturn); (bs "if", KW WIf); (bs "else", KW WElse); (bs "switch", KW WSwitch); (bs "case", KW WCase); (bs "for", KW WFor);
  (bs "while", KW WWhile); (bs "do", KW WDo); (bs "asm", KW WAsm); (bs "goto", KW WGoto); (bs "break", KW WBreak); (bs "continue", KW WContinue)].
(** One token. None: a word of a type name or a qualifier, a character constant, a string
    (its contents are not in PpModel), or no token of the parser for expressions and statements *)
Definition tok_of (k : tkind) (w : bytes) : option tok :=
  match k with
  | TK_PUNCT => option_map KP (lookup puncts w)
  | TK_IDENT => match lookup words_of w with Some t => Some t | None => if is_keyword w then None else Some (KId w) end
  | TK_PP_NUM => Some (KNum w)
  | _ => None
  end.
Fixpoint toks_upto_eof (l : list ptok) : option (list tok) :=
  match l with
  | [] => None
  | t :: r => if is_eof t then Some [] else
      match tok_of (p_kind t) (p_text t), toks_upto_eof r with Some x, Some y => Some (x :: y) | _, _ => None end
  end.
(** main.c: tokenize_file and preprocessor on the text [s] of file number [i] *)
Definition parser_input (fuel : nat) (E : env) (st : pst) (i : nat) (s : bytes) : lres (option (list tok)) :=
  lbind (source_toks i s) (fun l => lbind (preprocessor fuel E st l) (fun os => LOk (toks_upto_eof (fst os)))).
