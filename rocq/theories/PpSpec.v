(** Specification vocabulary for the preprocessor, independent of the model's
    functions. *)
From Verif Require Import Base LexModel PpModel.
Local Notation length := List.length.

(** A token list as it comes from a source file: some tokens, then the end marker. *)
Definition terminated (l : list ptok) : Prop :=
  exists l0 e, l = l0 ++ [e] /\ Forall (fun t => p_kind t <> TK_EOF) l0 /\ p_kind e = TK_EOF.

(** What matters of a token for the compiler: its kind and spelling. *)
Definition word := (tkind * bytes)%type.
Definition word_of (t : ptok) : word := (p_kind t, p_text t).
Definition words (l : list ptok) : list word := map word_of l.

(** ** Object-like macros *)
(** [expands tbl A w o]: the complete expansion of the word [w] is [o], where
    [A] are the macros whose expansion is in progress: a macro name is replaced
    by its body unless it is in [A], and the body is expanded with that name
    added to [A] (C11 6.10.3.4). *)
Inductive expands (tbl : bytes -> option (list word)) : list bytes -> word -> list word -> Prop :=
  | exp_keep A k n : k <> TK_IDENT \/ tbl n = None \/ In n A -> expands tbl A (k, n) [(k, n)]
  | exp_macro A n body outs :
      tbl n = Some body -> ~ In n A ->
      Forall2 (expands tbl (A ++ [n])) body outs ->
      expands tbl A (TK_IDENT, n) (List.concat outs).

(** ** Macro arguments *)
(** Parenthesis-balanced text; with [c = false] there is no comma outside
    nested parentheses. *)
Inductive arg_text (c : bool) : list bytes -> Prop :=
  | at_nil : arg_text c []
  | at_word w r : w <> bs "(" -> w <> bs ")" -> (c = false -> w <> bs ",") -> arg_text c r -> arg_text c (w :: r)
  | at_paren a b : arg_text true a -> arg_text c b -> arg_text c (bs "(" :: a ++ bs ")" :: b).

(** Lists joined with a separating word *)
Fixpoint joined (sep : bytes) (ls : list (list bytes)) : list bytes :=
  match ls with
  | [] => []
  | [l] => l
  | l :: r => l ++ sep :: joined sep r
  end.

(** The text of an argument: the spelling of its tokens without the end marker *)
Definition arg_words (a : marg) : list bytes := removelast (map p_text (a_toks a)).

(** ** Running *)
(** [pp_result E st l r]: preprocessing [l] in state [st] ends, with result [r]. *)
Definition pp_result (E : env) (st : pst) (l : list ptok) (r : lres (list ptok * pst)) : Prop :=
  exists f, preprocess2 f E st l = r /\ r <> LFuel.

(** A result with some output in front *)
Definition prepend {S} (o : list ptok) (r : lres (list ptok * S)) : lres (list ptok * S) :=
  match r with LOk (l, s) => LOk (o ++ l, s) | LErr => LErr | LOOB => LOOB | LFuel => LFuel end.

Definition starts_line (l : list ptok) : Prop := match l with t :: _ => p_bol t = true | [] => False end.

(** The lines [chunk] produce the output [out] and lead from [st] to [st'],
    whatever lines follow. *)
Definition consumes (E : env) (st : pst) (chunk out : list ptok) (st' : pst) : Prop :=
  forall rest r, starts_line rest -> pp_result E st' rest r -> pp_result E st (chunk ++ rest) (prepend out r).

(** ... and whatever conditional groups are open *)
Definition plain_text (E : env) (st : pst) (chunk out : list ptok) (st' : pst) : Prop :=
  forall cs, consumes E (set_conds st cs) chunk out (set_conds st' cs).

(** ** Conditional groups *)
(** A # at the beginning of a line *)
Definition hash_at (h : ptok) : Prop := p_kind h = TK_PUNCT /\ p_bol h = true /\ p_text h = bs "#".
Definition if_name (n : bytes) : Prop := n = bs "if" \/ n = bs "ifdef" \/ n = bs "ifndef".
Definition text_at (l : list ptok) : bytes := match l with t :: _ => p_text t | [] => [] end.

(** Text in which conditional directives are well nested; with [c = true] #elif
    and #else may occur at its top level. *)
Inductive nested (c : bool) : list ptok -> Prop :=
  | nt_nil : nested c []
  | nt_tok t r :
      p_kind t <> TK_EOF ->
      (p_bol t = true -> p_text t = bs "#" ->
         ~ if_name (text_at r) /\ text_at r <> bs "endif" /\
         (c = false -> text_at r <> bs "elif" /\ text_at r <> bs "else")) ->
      nested c r -> nested c (t :: r)
  | nt_cond h i b h2 e r :
      hash_at h -> if_name (p_text i) ->
      nested true b ->
      hash_at h2 -> p_text e = bs "endif" ->
      nested c r -> nested c (h :: i :: b ++ h2 :: e :: r).

Definition defined_in (st : pst) (t : ptok) : bool :=
  match p_kind t, lookup (macros st) (p_text t) with TK_IDENT, Some _ => true | _, _ => false end.

(** [expr] up to the end of its line has the value [v]; evaluating it may change
    the state (__COUNTER__). *)
Definition if_value (E : env) (st : pst) (expr : list ptok) (v : Z) (st' : pst) : Prop :=
  forall cs rest, starts_line rest ->
    exists f, eval_const_expr E (preprocess2 f E) (set_conds st cs) (expr ++ rest) = LOk (v, rest, set_conds st' cs).

(** An #if, #ifdef or #ifndef line and whether its condition holds *)
Inductive cond_line (E : env) (st : pst) : list ptok -> bool -> pst -> Prop :=
  | cl_ifdef h i n : hash_at h -> p_text i = bs "ifdef" -> cond_line E st [h; i; n] (defined_in st n) st
  | cl_ifndef h i n : hash_at h -> p_text i = bs "ifndef" -> cond_line E st [h; i; n] (negb (defined_in st n)) st
  | cl_if h i expr v st' : hash_at h -> p_text i = bs "if" -> if_value E st expr v st' ->
      cond_line E st (h :: i :: expr) (negb (v =? 0)) st'.

(** The arms after one whose condition was true, up to the #endif *)
Inductive skipped_arms : list ptok -> Prop :=
  | sa_endif h e : hash_at h -> p_text e = bs "endif" -> skipped_arms [h; e]
  | sa_else h i g h2 e : hash_at h -> p_text i = bs "else" -> nested false g ->
      hash_at h2 -> p_text e = bs "endif" -> skipped_arms (h :: i :: g ++ [h2; e])
  | sa_elif h i g rest : hash_at h -> p_text i = bs "elif" -> p_kind i <> TK_EOF -> p_bol i = false -> nested false g ->
      skipped_arms rest -> skipped_arms (h :: i :: g ++ rest).

(** [sel E st l out st']: the text [l] with conditional groups has the output
    [out]. [arms E st b l out st']: [l] starts after an #if or #elif line whose
    condition had the value [b], and goes to the matching #endif. *)
Inductive sel (E : env) : pst -> list ptok -> list ptok -> pst -> Prop :=
  | sel_nil st : sel E st [] [] st
  | sel_text st chunk o st1 l out st2 :
      starts_line chunk -> plain_text E st chunk o st1 -> sel E st1 l out st2 -> sel E st (chunk ++ l) (o ++ out) st2
  | sel_cond st line b st1 a o st2 l out st3 :
      cond_line E st line b st1 -> arms E st1 b a o st2 -> sel E st2 l out st3 ->
      sel E st (line ++ a ++ l) (o ++ out) st3
with arms (E : env) : pst -> bool -> list ptok -> list ptok -> pst -> Prop :=
  | arms_taken st g o st1 tail : sel E st g o st1 -> skipped_arms tail -> arms E st true (g ++ tail) o st1
  | arms_endif st g h e : nested false g -> starts_line (g ++ [h]) -> hash_at h -> p_text e = bs "endif" -> arms E st false (g ++ [h; e]) [] st
  | arms_else st g h i g2 h2 e o st1 :
      nested false g -> starts_line (g ++ [h]) -> hash_at h -> p_text i = bs "else" -> sel E st g2 o st1 ->
      hash_at h2 -> p_text e = bs "endif" -> arms E st false (g ++ h :: i :: g2 ++ [h2; e]) o st1
  | arms_elif st g h i expr v st1 rest o st2 :
      nested false g -> starts_line (g ++ [h]) -> hash_at h -> p_text i = bs "elif" -> if_value E st expr v st1 ->
      arms E st1 (negb (v =? 0)) rest o st2 ->
      arms E st false (g ++ h :: i :: expr ++ rest) o st2.
Scheme sel_mut := Induction for sel Sort Prop
  with arms_mut := Induction for arms Sort Prop.

(** ** Include search *)
(** [p] is the file named [name] in the first directory of [dirs] that has one. *)
Definition first_in (E : env) (dirs : list bytes) (name p : bytes) : Prop :=
  exists i d, nth_error dirs i = Some d /\ p = d ++ [47] ++ name /\ fs E p <> None /\
    forall j d', (j < i)%nat -> nth_error dirs j = Some d' -> fs E (d' ++ [47] ++ name) = None.

(** ** Parameter substitution *)
(** A macro body as a list of items: an ordinary word, a parameter, # parameter,
    operand ## operand, and , ## variadic parameter. [i] is the index of the
    argument. *)
Inductive operand := OTok (t : ptok) | OArg (t : ptok) (i : nat).
Inductive bitem :=
  | BWord (t : ptok)
  | BParam (t : ptok) (i : nat)
  | BStr (h t : ptok) (i : nat)
  | BPaste (o1 : operand) (hh : ptok) (o2 : operand)
  | BComma (c hh t : ptok) (i : nat).

Definition op_tok (o : operand) : ptok := match o with OTok t => t | OArg t _ => t end.
Definition item_toks (b : bitem) : list ptok :=
  match b with
  | BWord t => [t]
  | BParam t _ => [t]
  | BStr h t _ => [h; t]
  | BPaste o1 hh o2 => [op_tok o1; hh; op_tok o2]
  | BComma c hh t _ => [c; hh; t]
  end.

(** The meaning, on spellings. [ws i] is the text of argument [i], [str i] the
    string literal made of it. *)
Definition op_text (ws : nat -> list bytes) (o : operand) : list bytes :=
  match o with OTok t => [p_text t] | OArg _ i => ws i end.
Definition glue (l r : list bytes) : list bytes :=
  match l, r with
  | [], _ => r
  | _, [] => l
  | _, y :: r' => removelast l ++ (last l [] ++ y) :: r'
  end.
Definition item_text (ws : nat -> list bytes) (str : nat -> bytes) (b : bitem) : list bytes :=
  match b with
  | BWord t => [p_text t]
  | BParam _ i => ws i
  | BStr _ _ i => [str i]
  | BPaste o1 _ o2 => glue (op_text ws o1) (op_text ws o2)
  | BComma c _ _ i => match ws i with [] => [] | l => p_text c :: l end
  end.

(** The text [s] is exactly one token. *)
Definition single_token (s : bytes) : Prop :=
  exists t e, tokenize s = LOk [t; e] /\ loc t = 0%nat /\ tlen t = length s /\ kind e = TK_EOF.

(** [t] names argument [i]. *)
Definition names_arg (args : list marg) (t : ptok) (i : nat) : Prop :=
  exists a, nth_error args i = Some a /\ p_text t = a_name a /\
    forall j b, (j < i)%nat -> nth_error args j = Some b -> a_name b <> p_text t.
Definition no_arg (args : list marg) (t : ptok) : Prop := forall a, In a args -> a_name a <> p_text t.
Definition ordinary (t : ptok) : Prop :=
  p_kind t <> TK_EOF /\ p_bol t = false /\ p_text t <> bs "#" /\ p_text t <> bs "##" /\ p_text t <> bs "__VA_OPT__".

(** The text of argument [i] and the literal # makes of it *)
Definition arg_text_of (args : list marg) (i : nat) : list bytes :=
  match nth_error args i with Some a => arg_words a | None => [] end.
Definition arg_string (args : list marg) (i : nat) : bytes :=
  match nth_error args i with
  | Some a => LitModel.quote_string (LitModel.join_tokens (map (fun t => (p_text t, p_space t)) (removelast (a_toks a))))
  | None => []
  end.

Definition op_ok (args : list marg) (o : operand) : Prop :=
  match o with OTok t => no_arg args t | OArg t i => names_arg args t i end.
Definition item_ok (args : list marg) (b : bitem) : Prop :=
  match b with
  | BWord t => ordinary t /\ no_arg args t
  | BParam t i => ordinary t /\ p_text t <> bs "," /\ names_arg args t i
  | BStr h t i => p_kind h <> TK_EOF /\ p_text h = bs "#" /\ names_arg args t i
  | BPaste o1 hh o2 =>
      ordinary (op_tok o1) /\ p_text (op_tok o1) <> bs "," /\ op_ok args o1 /\
      p_kind hh <> TK_EOF /\ p_text hh = bs "##" /\
      p_kind (op_tok o2) <> TK_EOF /\ op_ok args o2 /\
      (op_text (arg_text_of args) o1 <> [] -> op_text (arg_text_of args) o2 <> [] ->
         single_token (last (op_text (arg_text_of args) o1) [] ++ hd [] (op_text (arg_text_of args) o2)))
  | BComma c hh t i =>
      p_kind c <> TK_EOF /\ p_text c = bs "," /\ p_text hh = bs "##" /\
      ordinary t /\ p_text t <> bs "," /\ names_arg args t i /\ exists a, nth_error args i = Some a /\ a_va a = true
  end.

(** An argument without macro names, directives or unusual bytes *)
Definition plain_arg (st : pst) (a : marg) : Prop :=
  exists l e, a_toks a = l ++ [e] /\ p_kind e = TK_EOF /\ p_text e = [] /\
    Forall (fun t => p_kind t <> TK_EOF /\ ~ (p_bol t = true /\ p_text t = bs "#") /\
      (p_kind t <> TK_IDENT \/ lookup (macros st) (p_text t) = None \/ In (p_text t) (p_hs t)) /\
      forall b, In b (p_text t) -> 0 < b < 256 /\ b <> 10) l.
