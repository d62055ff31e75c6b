(** Model of the preprocessor, /repo/preprocessor/preprocess.c (and the dynamic
    macros of predefined_macro.c).

    A token list is a Coq list whose last element is the EOF token; following
    `next` from the EOF token is a NULL dereference, [LOOB]. Lists are values: the
    places where the C code changes a list that something else still points to
    are modelled explicitly ([p_mark], [residual]). The hash tables are finite
    maps (association lists, newest first); hashmap.c itself is modelled in
    HashMapModel. *)
From Verif Require Import Base UnicodeModel TextModel LexModel LitModel.
Local Notation length := List.length.

(** struct Token (toycc.h:38-67), the fields the preprocessor uses. [p_text] is
    the spelling loc[0..len). [p_oline], [p_ofile] are line_no and file of the
    token at the end of the `origin` chain. [p_mark] is not in the C code: the
    index of the list node in the macro argument it belongs to, if any. *)
Record ptok := PTok {
  p_kind : tkind;
  p_text : bytes;
  p_bol : bool;
  p_space : bool;
  p_hs : list bytes;
  p_line : Z;
  p_file : nat;
  p_oline : Z;
  p_ofile : nat;
  p_mark : option nat;
}.

Definition is_eof (t : ptok) : bool := match p_kind t with TK_EOF => true | _ => false end.
Definition is_ident_tok (t : ptok) : bool := match p_kind t with TK_IDENT => true | _ => false end.

(** utils.c:14-17 equal: the spelling is [s]. *)
Definition equal (t : ptok) (s : bytes) : bool := beq (p_text t) s.

(** preprocess.c:57-60 is_hash *)
Definition is_hash (t : ptok) : bool := p_bol t && equal t (bs "#").

(** preprocess.c:64-73 skip_line: the loop `while (tok->at_bol)` does nothing,
    since at_bol is false there. Only a warning is printed. *)
Definition skip_line (l : list ptok) : lres (list ptok) :=
  match l with [] => LOOB | _ => LOk l end.

(** preprocess.c:75-82 copy_token: a fresh node. *)
Definition copy_token (t : ptok) : ptok :=
  PTok (p_kind t) (p_text t) (p_bol t) (p_space t) (p_hs t) (p_line t) (p_file t) (p_oline t) (p_ofile t) None.

(** preprocess.c:85-102 append *)
Fixpoint append (l1 l2 : list ptok) : list ptok :=
  match l1 with
  | [] => l2
  | t :: r => if is_eof t then l2 else copy_token t :: append r l2
  end.

(** preprocess.c:104-110 new_eof *)
Definition new_eof (t : ptok) : ptok :=
  PTok TK_EOF [] (p_bol t) (p_space t) (p_hs t) (p_line t) (p_file t) (p_oline t) (p_ofile t) None.

(** preprocess.c:115-130 copy_line: the copy and the rest *)
Fixpoint copy_line (l : list ptok) : lres (list ptok * list ptok) :=
  match l with
  | [] => LOOB
  | t :: r =>
      if p_bol t then LOk ([new_eof t], l)
      else lbind (copy_line r) (fun cr => LOk (copy_token t :: fst cr, snd cr))
  end.

(** A token of a text made by the preprocessor. Simplification: in C such a token
    belongs to a new File object with the name of the template's file, line 1
    and no line delta; here it keeps the file and line of the template. *)
Definition made_tok (tmpl : ptok) (text : bytes) (t : token) : ptok :=
  PTok (kind t) (firstn (tlen t) (skipn (loc t) text)) (at_bol t) (has_space t) [] (p_line tmpl) (p_file tmpl) (p_line tmpl) (p_file tmpl) None.
Definition retokenize (tmpl : ptok) (text : bytes) : lres (list ptok) :=
  lbind (tokenize text) (fun ts => LOk (map (made_tok tmpl text) ts)).
Definition retokenize1 (tmpl : ptok) (text : bytes) : lres ptok :=
  lbind (retokenize tmpl text) (fun ts => match ts with t :: _ => LOk t | [] => LOOB end).

(** printf "%d" *)
Fixpoint dec_digits (fuel : nat) (v : Z) (acc : bytes) : bytes :=
  match fuel with
  | O => acc
  | S f => if v <? 10 then (48 + v) :: acc else dec_digits f (v / 10) ((48 + v mod 10) :: acc)
  end.
Definition print_dec (v : Z) : bytes :=
  if v <? 0 then 45 :: dec_digits 20 (- v) [] else dec_digits 20 v [].

(** preprocess.c:129-133 new_num_token *)
Definition new_num_token (v : Z) (tmpl : ptok) : lres ptok := retokenize1 tmpl (print_dec v).
(** preprocess.c:491-495 new_str_token *)
Definition new_str_token (s : bytes) (tmpl : ptok) : lres ptok := retokenize1 tmpl (quote_string s).

(** ** Hidesets, preprocess.c:274-336; a list of names *)
Definition hideset_union (a b : list bytes) : list bytes := a ++ b.
Fixpoint hideset_contains (hs : list bytes) (s : bytes) : bool :=
  match hs with [] => false | n :: r => if beq n s then true else hideset_contains r s end.
Fixpoint hideset_intersection (a b : list bytes) : list bytes :=
  match a with
  | [] => []
  | n :: r => if hideset_contains b n then n :: hideset_intersection r b else hideset_intersection r b
  end.
Definition add_hs1 (hs : list bytes) (t : ptok) : ptok :=
  PTok (p_kind t) (p_text t) (p_bol t) (p_space t) (hideset_union (p_hs t) hs) (p_line t) (p_file t) (p_oline t) (p_ofile t) None.
Definition add_hideset (hs : list bytes) (l : list ptok) : list ptok := map (add_hs1 hs) l.

(** t->origin = tok *)
Definition set_origin (o t : ptok) : ptok :=
  PTok (p_kind t) (p_text t) (p_bol t) (p_space t) (p_hs t) (p_line t) (p_file t) (p_oline o) (p_ofile o) (p_mark t).
(** t->at_bol = tok->at_bol; t->has_space = tok->has_space, on the first token of a list *)
Definition set_flags (o t : ptok) : ptok :=
  PTok (p_kind t) (p_text t) (p_bol o) (p_space o) (p_hs t) (p_line t) (p_file t) (p_oline t) (p_ofile t) (p_mark t).
Definition set_flags_hd (o : ptok) (l : list ptok) : lres (list ptok) :=
  match l with [] => LOOB | t :: r => LOk (set_flags o t :: r) end.

(** ** Macros *)
Inductive handler := H_FILE | H_LINE | H_COUNTER | H_OTHER (text : bytes).
Inductive macro :=
  | Handler (h : handler)
  | ObjLike (body : list ptok)
  | FuncLike (params : list bytes) (va : option bytes) (body : list ptok).

Record marg := MArg { a_name : bytes; a_va : bool; a_toks : list ptok }.

(** preprocess.c:339-377 read_macro_arg_one; [LErr] is "premature end of input" *)
Fixpoint read_macro_arg_one (l : list ptok) (level : nat) (read_rest : bool) : lres (list ptok * list ptok) :=
  match l with
  | [] => LOOB
  | t :: r =>
      if (level =? 0)%nat && equal t (bs ")") then LOk ([new_eof t], l)
      else if (level =? 0)%nat && negb read_rest && equal t (bs ",") then LOk ([new_eof t], l)
      else if is_eof t then LErr
      else
        let level' := if equal t (bs "(") then S level else if equal t (bs ")") then (level - 1)%nat else level in
        lbind (read_macro_arg_one r level' read_rest) (fun ar => LOk (copy_token t :: fst ar, snd ar))
  end.

(** utils.c:92-97 skip *)
Definition skip (l : list ptok) (s : bytes) : lres (list ptok) :=
  match l with [] => LOOB | t :: r => if equal t s then LOk r else LErr end.
Definition hd_is (l : list ptok) (s : bytes) : bool := match l with t :: _ => equal t s | [] => false end.

(** preprocess.c:395-403 the named parameters; [first]: no argument read yet *)
Fixpoint read_named_args (params : list bytes) (first : bool) (l : list ptok) : lres (list marg * list ptok) :=
  match params with
  | [] => LOk ([], l)
  | n :: ps =>
      lbind (if first then LOk l else skip l (bs ",")) (fun l1 =>
      lbind (read_macro_arg_one l1 0 false) (fun ar =>
      lbind (read_named_args ps false (snd ar)) (fun rest =>
      LOk (MArg n false (fst ar) :: fst rest, snd rest))))
  end.

(** preprocess.c:379-429 read_macro_args; [l] is the list after the opening
    parenthesis; the rest starts with the closing one. *)
Definition read_macro_args (l : list ptok) (params : list bytes) (va : option bytes) : lres (list marg * list ptok) :=
  lbind (read_named_args params true l) (fun al =>
  let l1 := snd al in
  lbind (match va with
         | None => LOk (fst al, l1)
         | Some name =>
             match l1 with
             | [] => LOOB
             | t :: _ =>
                 if equal t (bs ")") then LOk (fst al ++ [MArg name true [new_eof t]], l1)
                 else
                   lbind (match params with [] => LOk l1 | _ => skip l1 (bs ",") end) (fun l2 =>
                   lbind (read_macro_arg_one l2 0 true) (fun ar =>
                   LOk (fst al ++ [MArg name true (fst ar)], snd ar)))
             end
         end) (fun res =>
  lbind (skip (snd res) (bs ")")) (fun _ => LOk res))).

(** preprocess.c:431-438 find_arg: index and argument *)
Fixpoint find_arg_at (args : list marg) (s : bytes) (i : nat) : option (nat * marg) :=
  match args with
  | [] => None
  | a :: r => if beq s (a_name a) then Some (i, a) else find_arg_at r s (S i)
  end.
Definition find_arg (args : list marg) (l : list ptok) : option (nat * marg) :=
  match l with [] => None | t :: _ => find_arg_at args (p_text t) 0 end.

Definition arg_empty (a : marg) : bool := match a_toks a with t :: _ => is_eof t | [] => true end.

(** The tokens before the EOF *)
Fixpoint upto_eof (l : list ptok) : list ptok :=
  match l with [] => [] | t :: r => if is_eof t then [] else t :: upto_eof r end.

Definition spelled_of (l : list ptok) : list spelled := map (fun t => (p_text t, p_space t)) (upto_eof l).

(** preprocess.c:499-507 stringize *)
Definition pp_stringize (hash : ptok) (arg : list ptok) : lres ptok :=
  new_str_token (join_tokens (spelled_of arg)) hash.

(** preprocess.c:510-523 paste *)
Definition paste (lhs rhs : ptok) : lres ptok :=
  lbind (retokenize lhs (p_text lhs ++ p_text rhs)) (fun ts =>
  match ts with
  | t :: t2 :: _ => if is_eof t2 then LOk t else LErr
  | _ => LOOB
  end).

(** preprocess.c:526-536 has_varargs *)
Fixpoint has_varargs (args : list marg) : bool :=
  match args with
  | [] => false
  | a :: r => if beq (a_name a) (bs "__VA_ARGS__") then negb (arg_empty a) else has_varargs r
  end.

(** preprocess2 links the nodes of its input list into its output, so the list
    an argument points to changes when the argument is expanded: the nodes up to
    the first one that is passed through unexpanded stay, and from there on the
    list is the output. (The flags of a token that follows an empty expansion
    also change in place; that is not modelled.) *)
Fixpoint mark_from (i : nat) (l : list ptok) : list ptok :=
  match l with
  | [] => []
  | t :: r => PTok (p_kind t) (p_text t) (p_bol t) (p_space t) (p_hs t) (p_line t) (p_file t) (p_oline t) (p_ofile t) (Some i) :: mark_from (S i) r
  end.
Fixpoint residual (orig out : list ptok) : list ptok :=
  match out with
  | [] => orig
  | t :: r => match p_mark t with Some i => firstn i orig ++ map copy_token out | None => residual orig r end
  end.
Definition set_arg (args : list marg) (i : nat) (l : list ptok) : list marg :=
  match nth_error args i with
  | Some a => set_nth i (MArg (a_name a) (a_va a) l) args
  | None => args
  end.

(** ** State *)
Inductive cctx := IN_THEN | IN_ELIF | IN_ELSE.
Record finfo := FInfo { f_name : bytes; f_display : bytes; f_delta : Z }.
Record pst := PSt {
  macros : list (bytes * macro);
  conds : list (cctx * bool);          (* cond_incl: ctx, included *)
  once : list bytes;                   (* pragma_once *)
  guards : list (bytes * bytes);       (* include_guards: path, macro *)
  cache : list (bytes * bytes);        (* search_include_paths: name, path *)
  next_idx : nat;                      (* include_next_idx *)
  counter : Z;                         (* __COUNTER__ *)
  files : list finfo;                  (* File objects *)
}.
Definition set_macros (st : pst) m := PSt m (conds st) (once st) (guards st) (cache st) (next_idx st) (counter st) (files st).
Definition set_conds (st : pst) c := PSt (macros st) c (once st) (guards st) (cache st) (next_idx st) (counter st) (files st).
Definition set_once (st : pst) o := PSt (macros st) (conds st) o (guards st) (cache st) (next_idx st) (counter st) (files st).
Definition set_guards (st : pst) g := PSt (macros st) (conds st) (once st) g (cache st) (next_idx st) (counter st) (files st).
Definition set_search (st : pst) c i := PSt (macros st) (conds st) (once st) (guards st) c i (counter st) (files st).
Definition set_counter (st : pst) c := PSt (macros st) (conds st) (once st) (guards st) (cache st) (next_idx st) c (files st).
Definition set_files (st : pst) f := PSt (macros st) (conds st) (once st) (guards st) (cache st) (next_idx st) (counter st) f.

Fixpoint lookup {A} (m : list (bytes * A)) (k : bytes) : option A :=
  match m with [] => None | (k', v) :: r => if beq k' k then Some v else lookup r k end.
Definition remove {A} (m : list (bytes * A)) (k : bytes) : list (bytes * A) :=
  filter (fun kv => negb (beq (fst kv) k)) m.

(** The outside world: the files (tokenized, see LexModel), the include path
    list, and the constant expression evaluator (const_expr on the converted
    tokens, common.c; None is a diagnostic, also for trailing tokens). *)
Record env := Env {
  fs : bytes -> option (list ptok);
  inc_paths : list bytes;
  const_expr : list ptok -> option Z;
}.

(** preprocess.c:265-271 find_macro *)
Definition find_macro (st : pst) (t : ptok) : option macro :=
  if is_ident_tok t then lookup (macros st) (p_text t) else None.

Definition file_of (st : pst) (i : nat) : finfo := nth i (files st) (FInfo [] [] 0).

(** predefined_macro.c:19-62 the handlers *)
Definition run_handler (st : pst) (h : handler) (t : ptok) : lres (ptok * pst) :=
  match h with
  | H_FILE => lbind (new_str_token (f_display (file_of st (p_ofile t))) t) (fun x => LOk (x, st))
  | H_LINE => lbind (new_num_token (p_oline t + f_delta (file_of st (p_ofile t))) t) (fun x => LOk (x, st))
  | H_COUNTER => lbind (new_num_token (counter st) t) (fun x => LOk (x, set_counter st (counter st + 1)))
  | H_OTHER s => lbind (new_str_token s t) (fun x => LOk (x, st))
  end.

(** preprocess.c:538-679 subst; [acc] is the output so far, last token first;
    [pp] is preprocess2. The fuel bounds the number of iterations. *)
Fixpoint subst (fuel : nat) (pp : pst -> list ptok -> lres (list ptok * pst))
    (st : pst) (args : list marg) (l : list ptok) (acc : list ptok) : lres (list ptok * pst) :=
  match fuel with
  | O => LFuel
  | S f =>
  match l with
  | [] => LOOB
  | t :: r =>
      let next2 := match r with _ :: r2 => r2 | [] => [] end in
      if is_eof t then LOk (rev acc ++ [copy_token t], st)
      else if equal t (bs "#") then
        match find_arg args r with
        | None => LErr
        | Some (_, a) => lbind (pp_stringize t (a_toks a)) (fun s => subst f pp st args next2 (s :: acc))
        end
      else if equal t (bs ",") && hd_is r (bs "##") &&
              match find_arg args next2 with Some (_, a) => a_va a | None => false end then
        match find_arg args next2 with
        | Some (_, a) =>
            if arg_empty a then subst f pp st args (match next2 with _ :: r3 => r3 | [] => [] end) acc
            else subst f pp st args next2 (copy_token t :: acc)
        | None => LErr (* excluded by the test above *)
        end
      else if equal t (bs "##") then
        match acc with
        | [] => LErr
        | cur :: acc' =>
            match r with
            | [] => LOOB
            | x :: r2 =>
                if is_eof x then LErr
                else
                  match find_arg args r with
                  | Some (_, a) =>
                      match a_toks a with
                      | [] => LOOB
                      | y :: ys =>
                          if is_eof y then subst f pp st args r2 acc
                          else lbind (paste cur y) (fun p =>
                               subst f pp st args r2 (rev (map copy_token (upto_eof ys)) ++ p :: acc'))
                      end
                  | None => lbind (paste cur x) (fun p => subst f pp st args r2 (p :: acc'))
                  end
            end
        end
      else
        match find_arg args l with
        | Some (i, a) =>
            if hd_is r (bs "##") then
              if arg_empty a then
                match next2 with
                | [] => LOOB
                | x :: r3 =>
                    match find_arg args next2 with
                    | Some (_, a2) => subst f pp st args r3 (rev (map copy_token (upto_eof (a_toks a2))) ++ acc)
                    | None => subst f pp st args r3 (copy_token x :: acc)
                    end
                end
              else subst f pp st args r (rev (map copy_token (upto_eof (a_toks a))) ++ acc)
            else if equal t (bs "__VA_OPT__") && hd_is r (bs "(") then
              lbind (read_macro_arg_one next2 0 true) (fun ar =>
              lbind (skip (snd ar) (bs ")")) (fun r' =>
              subst f pp st args r' (if has_varargs args then rev (upto_eof (fst ar)) ++ acc else acc)))
            else
              lbind (pp st (mark_from 0 (a_toks a))) (fun os =>
              lbind (set_flags_hd t (fst os)) (fun out =>
              subst f pp (snd os) (set_arg args i (residual (a_toks a) out)) r
                    (rev (map copy_token (upto_eof out)) ++ acc)))
        | None =>
            if equal t (bs "__VA_OPT__") && hd_is r (bs "(") then
              lbind (read_macro_arg_one next2 0 true) (fun ar =>
              lbind (skip (snd ar) (bs ")")) (fun r' =>
              subst f pp st args r' (if has_varargs args then rev (upto_eof (fst ar)) ++ acc else acc)))
            else subst f pp st args r (copy_token t :: acc)
        end
  end
  end.

(** preprocess.c:681-751 expand_macro on [t :: r]: None if it is not expanded. *)
Definition expand_macro (pp : pst -> list ptok -> lres (list ptok * pst)) (st : pst) (t : ptok) (r : list ptok)
    : lres (option (list ptok * pst)) :=
  if hideset_contains (p_hs t) (p_text t) then LOk None
  else
    match find_macro st t with
    | None => LOk None
    | Some (Handler h) => lbind (run_handler st h t) (fun xs => LOk (Some (fst xs :: r, snd xs)))
    | Some (ObjLike body) =>
        let hs := hideset_union (p_hs t) [p_text t] in
        let body' := map (set_origin t) (add_hideset hs body) in
        lbind (set_flags_hd t (append body' r)) (fun l => LOk (Some (l, st)))
    | Some (FuncLike params va body) =>
        match r with
        | [] => LOOB
        | lp :: r1 =>
            if negb (equal lp (bs "(")) then LOk None
            else
              lbind (read_macro_args r1 params va) (fun al =>
              match snd al with
              | [] => LOOB
              | rparen :: r2 =>
                  let hs := hideset_union (hideset_intersection (p_hs t) (p_hs rparen)) [p_text t] in
                  lbind (subst (S (length body)) pp st (fst al) body []) (fun bs_ =>
                  let body' := map (set_origin t) (add_hideset hs (fst bs_)) in
                  lbind (set_flags_hd t (append body' r2)) (fun l => LOk (Some (l, snd bs_))))
              end)
        end
    end.

(** ** Directives *)
(** preprocess.c:222-240 skip_cond_incl2; [depth] replaces the recursion:
    returning from depth 0 ends the outermost call. *)
Definition is_if_name (l : list ptok) : bool := hd_is l (bs "if") || hd_is l (bs "ifdef") || hd_is l (bs "ifndef").
Definition is_else_name (l : list ptok) : bool := hd_is l (bs "elif") || hd_is l (bs "else") || hd_is l (bs "endif").

(** preprocess.c:222-264 skip_cond_incl and skip_cond_incl2 in one function: in
    the C code skip_cond_incl2 calls itself at every nested #if; [depth] is the
    number of active calls of it, 0 is skip_cond_incl itself. *)
Fixpoint skip_cond (depth : nat) (l : list ptok) : lres (list ptok) :=
  match l with
  | [] => LOOB
  | t :: r =>
      if is_eof t then LOk l
      else if is_hash t && is_if_name r then
        match r with _ :: r2 => skip_cond (S depth) r2 | [] => LOOB end
      else
        match depth with
        | O => if is_hash t && is_else_name r then LOk l else skip_cond O r
        | S d =>
            if is_hash t && hd_is r (bs "endif") then
              match r with _ :: r2 => skip_cond d r2 | [] => LOOB end
            else skip_cond (S d) r
        end
  end.
Definition skip_cond_incl (l : list ptok) : lres (list ptok) := skip_cond 0 l.

(** preprocess.c:145-167: the `defined` operator *)
Fixpoint read_defined (fuel : nat) (st : pst) (l : list ptok) : lres (list ptok) :=
  match fuel with
  | O => LFuel
  | S f =>
  match l with
  | [] => LOOB
  | t :: r =>
      if is_eof t then LOk [t]
      else if equal t (bs "defined") then
        let paren := hd_is r (bs "(") in
        let l1 := if paren then match r with _ :: r2 => r2 | [] => [] end else r in
        match l1 with
        | [] => LOOB
        | x :: r3 =>
            if negb (is_ident_tok x) then LErr
            else
              lbind (if paren then skip r3 (bs ")") else LOk r3) (fun r4 =>
              lbind (new_num_token (match find_macro st x with Some _ => 1 | None => 0 end) t) (fun n =>
              lbind (read_defined f st r4) (fun out => LOk (n :: out))))
        end
      else lbind (read_defined f st r) (fun out => LOk (t :: out))
  end
  end.

(** preprocess.c:136-170 read_const_expr: expression and rest *)
Definition read_const_expr (st : pst) (l : list ptok) : lres (list ptok * list ptok) :=
  lbind (copy_line l) (fun cr =>
  lbind (read_defined (S (length (fst cr))) st (fst cr)) (fun e => LOk (e, snd cr))).

(** preprocess.c:186-194: remaining identifiers become 0 *)
Fixpoint zero_idents (l : list ptok) : lres (list ptok) :=
  match l with
  | [] => LOk []
  | t :: r =>
      lbind (if is_ident_tok t then new_num_token 0 t else LOk t) (fun t' =>
      lbind (zero_idents r) (fun r' => LOk (t' :: r')))
  end.

(** preprocess.c:174-207 eval_const_expr; [l] is the list after the directive name *)
Definition eval_const_expr (E : env) (pp : pst -> list ptok -> lres (list ptok * pst)) (st : pst) (l : list ptok)
    : lres (Z * list ptok * pst) :=
  lbind (read_const_expr st l) (fun er =>
  lbind (pp st (fst er)) (fun os =>
  match fst os with
  | [] => LOOB
  | t :: _ =>
      if is_eof t then LErr
      else
        lbind (zero_idents (fst os)) (fun e =>
        match const_expr E e with
        | None => LErr
        | Some v => LOk (v, snd er, snd os)
        end)
  end)).

(** preprocess.c:771-808 read_macro_params; [l] is the list after the opening
    parenthesis; parameters, variadic name, rest *)
Fixpoint read_macro_params (fuel : nat) (first : bool) (l : list ptok) : lres (list bytes * option bytes * list ptok) :=
  match fuel with
  | O => LFuel
  | S f =>
  match l with
  | [] => LOOB
  | t :: r =>
      if equal t (bs ")") then LOk ([], None, r)
      else
        lbind (if first then LOk l else skip l (bs ",")) (fun l1 =>
        match l1 with
        | [] => LOOB
        | x :: r1 =>
            if equal x (bs "...") then lbind (skip r1 (bs ")")) (fun r2 => LOk ([], Some (bs "__VA_ARGS__"), r2))
            else if negb (is_ident_tok x) then LErr
            else if hd_is r1 (bs "...") then
              match r1 with
              | _ :: r2 => lbind (skip r2 (bs ")")) (fun r3 => LOk ([], Some (p_text x), r3))
              | [] => LOOB
              end
            else lbind (read_macro_params f false r1) (fun pvr =>
                 LOk (p_text x :: fst (fst pvr), snd (fst pvr), snd pvr))
        end)
  end
  end.

(** preprocess.c:810-831 read_macro_definition and 753-763 add_macro *)
Definition read_macro_definition (st : pst) (l : list ptok) : lres (list ptok * pst) :=
  match l with
  | [] => LOOB
  | n :: r =>
      if negb (is_ident_tok n) then LErr
      else
        match r with
        | [] => LOOB
        | t :: r1 =>
            if negb (p_space t) && equal t (bs "(") then
              lbind (read_macro_params (S (length r1)) true r1) (fun pvr =>
              lbind (copy_line (snd pvr)) (fun cr =>
              LOk (snd cr, set_macros st ((p_text n, FuncLike (fst (fst pvr)) (snd (fst pvr)) (fst cr)) :: macros st))))
            else
              lbind (copy_line r) (fun cr =>
              LOk (snd cr, set_macros st ((p_text n, ObjLike (fst cr)) :: macros st)))
        end
  end.

(** preprocess.c:848-858: the tokens between < and > *)
Fixpoint find_gt (l : list ptok) : lres (list ptok * list ptok) :=
  match l with
  | [] => LOOB
  | t :: r =>
      if equal t (bs ">") then LOk ([], l)
      else if p_bol t || is_eof t then LErr
      else lbind (find_gt r) (fun ar => LOk (t :: fst ar, snd ar))
  end.

(** preprocess.c:834-876 read_include_filename: name, double-quoted, rest, state *)
Fixpoint read_include_filename (fuel : nat) (pp : pst -> list ptok -> lres (list ptok * pst)) (st : pst) (l : list ptok)
    : lres (bytes * bool * list ptok * pst) :=
  match fuel with
  | O => LFuel
  | S f =>
  match l with
  | [] => LOOB
  | t :: r =>
      match p_kind t with
      | TK_STR =>
          lbind (skip_line r) (fun r' => LOk (firstn (length (p_text t) - 2) (skipn 1 (p_text t)), true, r', st))
      | _ =>
          if equal t (bs "<") then
            lbind (find_gt l) (fun ar =>
            match snd ar with
            | [] => LOOB
            | _ :: r1 =>
                lbind (skip_line r1) (fun r' =>
                LOk (join_tokens (map (fun t => (p_text t, p_space t)) (tl (fst ar))), false, r', st))
            end)
          else if is_ident_tok t then
            lbind (copy_line l) (fun cr =>
            lbind (pp st (fst cr)) (fun os =>
            lbind (read_include_filename f pp (snd os) (fst os)) (fun res =>
            LOk (fst (fst (fst res)), snd (fst (fst res)), snd cr, snd res))))
          else LErr
      end
  end
  end.

(** preprocess.c:891-925 detect_include_guard *)
Fixpoint guard_loop (fuel : nat) (l : list ptok) : lres bool :=
  match fuel with
  | O => LFuel
  | S f =>
  match l with
  | [] => LOOB
  | t :: r =>
      if is_eof t then LOk false
      else if negb (is_hash t) then guard_loop f r
      else if hd_is r (bs "endif") && match r with _ :: e :: _ => is_eof e | _ => false end then LOk true
      else if equal t (bs "if") || equal t (bs "ifdef") || equal t (bs "ifndef")
        then lbind (skip_cond_incl r) (fun l' => guard_loop f l')
      else guard_loop f r
  end
  end.
Definition detect_include_guard (l : list ptok) : lres (option bytes) :=
  match l with
  | h :: i :: n :: r =>
      if negb (is_hash h) || negb (equal i (bs "ifndef")) then LOk None
      else if negb (is_ident_tok n) then LOk None
      else
        match r with
        | h2 :: d :: n2 :: _ =>
            if negb (is_hash h2) || negb (equal d (bs "define")) || negb (equal n2 (p_text n)) then LOk None
            else lbind (guard_loop (S (length r)) r) (fun b => LOk (if b then Some (p_text n) else None))
        | _ => LOk None (* too few tokens: is_hash fails on EOF *)
        end
  | _ => LOk None
  end.

(** Tokens of a newly read file: a new File object. *)
Definition in_file (i : nat) (t : ptok) : ptok :=
  PTok (p_kind t) (p_text t) (p_bol t) (p_space t) (p_hs t) (p_line t) i (p_line t) i None.

(** preprocess.c:927-952 include_file *)
Definition include_file (E : env) (st : pst) (l : list ptok) (path : bytes) : lres (list ptok * pst) :=
  if existsb (beq path) (once st) then LOk (l, st)
  else if match lookup (guards st) path with
          | Some g => match lookup (macros st) g with Some _ => true | None => false end
          | None => false
          end
  then LOk (l, st)
  else
    match fs E path with
    | None => LErr
    | Some toks =>
        let i := length (files st) in
        let st1 := set_files st (files st ++ [FInfo path path 0]) in
        let toks' := map (in_file i) toks in
        lbind (detect_include_guard toks') (fun g =>
        let st2 := match g with Some m => set_guards st1 ((path, m) :: guards st1) | None => st1 end in
        LOk (append toks' l, st2))
    end.

Definition file_exists (E : env) (p : bytes) : bool := match fs E p with Some _ => true | None => false end.
Definition path_join (d f : bytes) : bytes := d ++ [47] ++ f.

(** preprocess.c:963-973, from index [i] of the search list *)
Fixpoint search_from (E : env) (i : nat) (dirs : list bytes) (name : bytes) : option (bytes * nat) :=
  match dirs with
  | [] => None
  | d :: r => if file_exists E (path_join d name) then Some (path_join d name, i) else search_from E (S i) r name
  end.

(** preprocess.c:954-976 search_include_paths *)
Definition search_include_paths (E : env) (st : pst) (name : bytes) : option bytes * pst :=
  if (at_ name 0 =? 47) then (Some name, st)
  else
    match lookup (cache st) name with
    | Some p => (Some p, st)
    | None =>
        match search_from E 0 (inc_paths E) name with
        | Some (p, i) => (Some p, set_search st ((name, p) :: cache st) (S i))
        | None => (None, st)
        end
    end.

(** preprocess.c:978-988 search_include_next *)
Definition search_include_next (E : env) (st : pst) (name : bytes) : option bytes * pst :=
  match search_from E (next_idx st) (skipn (next_idx st) (inc_paths E)) name with
  | Some (p, i) => (Some p, set_search st (cache st) i)
  | None => (None, set_search st (cache st) (Nat.max (next_idx st) (length (inc_paths E))))
  end.

(** dirname(3) *)
Fixpoint last_slash (p : bytes) (i : nat) : option nat :=
  match p with
  | [] => None
  | c :: r => match last_slash r (S i) with Some j => Some j | None => if c =? 47 then Some i else None end
  end.
Definition dirname (p : bytes) : bytes :=
  match last_slash p 0 with
  | None => [46]
  | Some O => [47]
  | Some n => firstn n p
  end.

(** preprocess.c:1042-1057 *)
Definition do_include (E : env) (st : pst) (start : ptok) (name : bytes) (dq : bool) (l : list ptok) : lres (list ptok * pst) :=
  let local := path_join (dirname (f_name (file_of st (p_file start)))) name in
  if negb (at_ name 0 =? 47) && dq && file_exists E local then include_file E st l local
  else
    let (p, st') := search_include_paths E st name in
    include_file E st' l (match p with Some p => p | None => name end).

(** preprocess.c:1163-1168 #pragma: do tok = tok->next while (!tok->at_bol) *)
Fixpoint skip_pragma (l : list ptok) : lres (list ptok) :=
  match l with
  | [] => LOOB
  | t :: r => if p_bol t then LOk l else skip_pragma r
  end.

(** preprocess.c:991-1009 read_line_marker; `preprocessor` runs preprocess2 and
    then fails if a conditional is open; the type of the number is checked by
    [const_expr]-free conversion: [convert_pp_int]. The new display name is the
    contents of the string. *)
Definition read_line_marker (pp : pst -> list ptok -> lres (list ptok * pst)) (st : pst) (start : ptok) (l : list ptok)
    : lres (list ptok * pst) :=
  lbind (copy_line l) (fun cr =>
  lbind (pp st (fst cr)) (fun os =>
  let st1 := snd os in
  match conds st1 with
  | _ :: _ => LErr
  | [] =>
      match fst os with
      | [] => LOOB
      | t :: r =>
          match p_kind t, convert_pp_int (p_text t) (length (p_text t)) with
          | TK_PP_NUM, Some (v, Int) =>
              let upd d n := set_files st1 (set_nth (p_file start) (FInfo (f_name (file_of st1 (p_file start))) n d) (files st1)) in
              let delta := v - p_line start in
              match r with
              | [] => LOOB
              | t2 :: _ =>
                  match p_kind t2 with
                  | TK_EOF => LOk (snd cr, upd delta (f_display (file_of st1 (p_file start))))
                  | TK_STR => lbind (read_string 8 (skipn 1 (p_text t2))) (fun ln => LOk (snd cr, upd delta (removelast (fst ln))))
                  | _ => LErr
                  end
              end
          | _, _ => LErr
          end
      end
  end)).

(** preprocess.c:1028-1182: the directive whose name starts [l] ([start] is the
    #); the list at which preprocessing goes on and the new state. *)
Definition directive (E : env) (pp : pst -> list ptok -> lres (list ptok * pst)) (fuel : nat)
    (st : pst) (start : ptok) (l : list ptok) : lres (list ptok * pst) :=
  match l with
  | [] => LOOB
  | t :: r =>
      let cond st name_list included :=
        lbind (match name_list with [] => LOOB | _ :: r2 => skip_line r2 end) (fun l' =>
        let st' := set_conds st ((IN_THEN, included) :: conds st) in
        lbind (if included then LOk l' else skip_cond_incl l') (fun l'' => LOk (l'', st'))) in
      if equal t (bs "include") then
        lbind (read_include_filename fuel pp st r) (fun x =>
        do_include E (snd x) start (fst (fst (fst x))) (snd (fst (fst x))) (snd (fst x)))
      else if equal t (bs "include_next") then
        lbind (read_include_filename fuel pp st r) (fun x =>
        let name := fst (fst (fst x)) in
        let (p, st') := search_include_next E (snd x) name in
        include_file E st' (snd (fst x)) (match p with Some p => p | None => name end))
      else if equal t (bs "define") then read_macro_definition st r
      else if equal t (bs "undef") then
        match r with
        | [] => LOOB
        | n :: r2 =>
            if negb (is_ident_tok n) then LErr
            else lbind (skip_line r2) (fun l' => LOk (l', set_macros st (remove (macros st) (p_text n))))
        end
      else if equal t (bs "if") then
        lbind (eval_const_expr E pp st r) (fun vls =>
        let v := fst (fst vls) in
        let st' := set_conds (snd vls) ((IN_THEN, negb (v =? 0)) :: conds (snd vls)) in
        lbind (if v =? 0 then skip_cond_incl (snd (fst vls)) else LOk (snd (fst vls))) (fun l' => LOk (l', st')))
      else if equal t (bs "ifdef") then
        cond st r (match r with n :: _ => match find_macro st n with Some _ => true | None => false end | [] => false end)
      else if equal t (bs "ifndef") then
        cond st r (match r with n :: _ => match find_macro st n with Some _ => false | None => true end | [] => true end)
      else if equal t (bs "elif") then
        match conds st with
        | [] | (IN_ELSE, _) :: _ => LErr
        | (_, true) :: cs =>
            lbind (skip_cond_incl l) (fun l' => LOk (l', set_conds st ((IN_ELIF, true) :: cs)))
        | (_, false) :: cs =>
            lbind (eval_const_expr E pp (set_conds st ((IN_ELIF, false) :: cs)) r) (fun vls =>
            if fst (fst vls) =? 0 then
              lbind (skip_cond_incl (snd (fst vls))) (fun l' => LOk (l', snd vls))
            else
              LOk (snd (fst vls), set_conds (snd vls) (match conds (snd vls) with (c, _) :: cs' => (c, true) :: cs' | [] => [] end)))
        end
      else if equal t (bs "else") then
        match conds st with
        | [] | (IN_ELSE, _) :: _ => LErr
        | (_, inc) :: cs =>
            lbind (skip_line r) (fun l' =>
            let st' := set_conds st ((IN_ELSE, inc) :: cs) in
            lbind (if inc then skip_cond_incl l' else LOk l') (fun l'' => LOk (l'', st')))
        end
      else if equal t (bs "endif") then
        match conds st with
        | [] => LErr
        | _ :: cs => lbind (skip_line r) (fun l' => LOk (l', set_conds st cs))
        end
      else if equal t (bs "line") then read_line_marker pp st (match r with x :: _ => x | [] => t end) r
      else if match p_kind t with TK_PP_NUM => true | _ => false end then read_line_marker pp st t l
      else if equal t (bs "pragma") && hd_is r (bs "once") then
        lbind (match r with [] => LOOB | _ :: r2 => skip_line r2 end) (fun l' =>
        LOk (l', set_once st (f_name (file_of st (p_file t)) :: once st)))
      else if equal t (bs "pragma") then lbind (skip_pragma r) (fun l' => LOk (l', st))
      else if equal t (bs "error") then LErr
      else if p_bol t then LOk (l, st)
      else LErr
  end.

(** preprocess.c:1013-1185 preprocess2: output (with the EOF token) and state.
    One unit of fuel per iteration; nested calls get what is left. *)
Fixpoint preprocess2 (fuel : nat) (E : env) (st : pst) (l : list ptok) : lres (list ptok * pst) :=
  match fuel with
  | O => LFuel
  | S f =>
      match l with
      | [] => LOOB
      | t :: r =>
          if is_eof t then LOk ([t], st)
          else
            lbind (expand_macro (preprocess2 f E) st t r) (fun x =>
            match x with
            | Some (l', st') => preprocess2 f E st' l'
            | None =>
                if negb (is_hash t) then
                  lbind (preprocess2 f E st r) (fun os => LOk (t :: fst os, snd os))
                else
                  lbind (directive E (preprocess2 f E) f st t r) (fun ls => preprocess2 f E (snd ls) (fst ls))
            end)
      end
  end.

(** The tokens of a source text (tokenize.c:900-920 after the text filters), as
    File object [i] *)
Definition source_tok (i : nat) (text : bytes) (t : token) : ptok :=
  PTok (kind t) (firstn (tlen t) (skipn (loc t) text)) (at_bol t) (has_space t) [] (Z.of_nat (line_no t)) i (Z.of_nat (line_no t)) i None.
Definition source_toks (i : nat) (text : bytes) : lres (list ptok) :=
  lbind (tokenize text) (fun ts => LOk (map (source_tok i text) ts)).

(** preprocess.c:1296-1300 preprocessor up to the conversion of pp-numbers and
    strings (LitModel): the output of preprocess2, rejected if a conditional is open. *)
Definition preprocessor (fuel : nat) (E : env) (st : pst) (l : list ptok) : lres (list ptok * pst) :=
  lbind (preprocess2 fuel E st l) (fun os => match conds (snd os) with [] => LOk os | _ => LErr end).
