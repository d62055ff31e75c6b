(** Model of the statement parser, /repo/parser/parser.c:1072-1086 and 1103-1377 (stmt,
    expr_stmt, asm_stmt), 1546-1588 (compound_stmt), /repo/parser/declarator.c:892-965
    (declaration), /repo/parser/initializer.c (initializer): which tree a sequence of tokens
    has. Whether a case is in a switch and a label exists is in StmtModel. *)
From Verif Require Import Base NodeModel ParseModel.
Local Notation length := List.length.

(** Declarators here are pointers to the type or the type itself; all others, and what
    declspec reads, are in DeclModel. The braces of an initializer are one token. *)
Inductive dinit := DExpr (e : sx) | DBrace (i : bytes).
Inductive dcl := Dcl (stars : nat) (n : bytes) (i : option dinit).
Inductive finit := FNone | FExpr (e : sx) | FDecl (t : bytes) (l : list dcl).
Inductive ss :=
  | YEmpty
  | YExpr (e : sx)
  | YBlock (b : items)
  | YIf (c : sx) (a : ss)
  | YIfElse (c : sx) (a b : ss)
  | YSwitch (c : sx) (s : ss)
  | YCase (lo : sx) (hi : option sx) (s : ss)
  | YDefault (s : ss)
  | YFor (i : finit) (c inc : option sx) (s : ss)
  | YWhile (c : sx) (s : ss)
  | YDo (s : ss) (c : sx)
  | YAsm (a : bytes)
  | YGotoP (e : sx)
  | YGoto (l : bytes)
  | YBreak
  | YContinue
  | YLabel (l : bytes) (s : ss)
  | YReturn (e : option sx)
with items :=
  | INil
  | IStmt (s : ss) (r : items)
  | IDecl (t : bytes) (l : list dcl) (r : items).

(** BFuel: not enough fuel; BErr: a diagnostic *)
Inductive bres (A : Type) := BFuel | BErr | BOk (a : A) (rest : list tok).
Arguments BFuel {A}. Arguments BErr {A}. Arguments BOk {A} a rest.
Definition bbind {A B} (r : bres A) (k : A -> list tok -> bres B) : bres B := match r with BOk a ts => k a ts | BErr => BErr | BFuel => BFuel end.
Definition lift (r : res) : bres sx := match r with Ok e ts => BOk e ts | Err => BErr | Fuel => BFuel end.
Definition bskip {A} (p : tok -> bool) (ts : list tok) (k : list tok -> bres A) : bres A := match ts with t :: ts => if p t then k ts else BErr | [] => BErr end.
Definition is_semi t := match t with KP Semi => true | _ => false end.
Definition is_while t := match t with KW WWhile => true | _ => false end.
(** parser.c:1061 expr, 1010-1016 const_expr, 1019 assign; the fuel suffices: proved *)
Definition p_expr (ts : list tok) : bres sx := lift (parse_expr ts).
Definition p_const (ts : list tok) : bres sx := lift (parse (20 * (length ts + 1)) PCond ts).
Definition p_assign (ts : list tok) : bres sx := lift (parse (20 * (length ts + 1)) PAssign ts).

(** declarator.c pointers: the stars of a declarator *)
Fixpoint p_stars (ts : list tok) : nat * list tok := match ts with KP Star :: r => let '(n, r) := p_stars r in (S n, r) | _ => (O, ts) end.
(** initializer.c: after the equals sign *)
Definition p_init (ts : list tok) : bres dinit :=
  match ts with KBrace i :: ts => BOk (DBrace i) ts | _ => bbind (p_assign ts) (fun e ts => BOk (DExpr e) ts) end.
Definition p_declarator (ts : list tok) : bres dcl :=
  let '(n, ts) := p_stars ts in
  match ts with
  | KId x :: KP PEq :: ts => bbind (p_init ts) (fun i ts => BOk (Dcl n x (Some i)) ts)
  | KId x :: ts => BOk (Dcl n x None) ts
  | _ => BErr
  end.
(** declarator.c:900-955, the loop; [first]: i is 0 *)
Fixpoint p_decls (f : nat) (first : bool) (ts : list tok) : bres (list dcl) :=
  match f with
  | O => BFuel
  | S f =>
      match ts with
      | KP Semi :: ts => BOk [] ts
      | _ => let one ts := bbind (p_declarator ts) (fun d ts => bbind (p_decls f false ts) (fun l ts => BOk (d :: l) ts)) in
             if first then one ts else bskip is_comma ts one
      end
  end.
Definition p_declaration (ts : list tok) : bres (list dcl) := p_decls (S (length ts)) true ts.

(** parser.c:1072-1086 expr_stmt *)
Definition p_expr_stmt (ts : list tok) : bres ss :=
  match ts with
  | KP Semi :: ts => BOk YEmpty ts
  | _ => bbind (p_expr ts) (fun e ts => bskip is_semi ts (fun ts => BOk (YExpr e) ts))
  end.
(** parser.c:1248-1255, the first part of a for *)
Definition p_for_init (ts : list tok) : bres finit :=
  match ts with
  | KType t :: ts => bbind (p_declaration ts) (fun l ts => BOk (FDecl t l) ts)
  | _ => bbind (p_expr_stmt ts) (fun s ts => BOk (match s with YExpr e => FExpr e | _ => FNone end) ts)
  end.
(** an expression unless the token is there *)
Definition p_opt (p : tok -> bool) (ts : list tok) : bres (option sx) :=
  let some := bbind (p_expr ts) (fun e ts => BOk (Some e) ts) in match ts with t :: _ => if p t then BOk None ts else some | [] => some end.
Definition p_paren (ts : list tok) : bres sx := bskip is_lpar ts (fun ts => bbind (p_expr ts) (fun e ts => bskip is_rpar ts (fun ts => BOk e ts))).
Fixpoint quals (ts : list tok) : list tok := match ts with KW WQual :: ts => quals ts | _ => ts end.

(** parser.c:1139-1377 stmt and 1546-1588 compound_stmt *)
Fixpoint p_stmt (f : nat) (ts : list tok) {struct f} : bres ss :=
  match f with
  | O => BFuel
  | S f =>
      match ts with
      | KW WReturn :: ts => bbind (p_opt is_semi ts) (fun e ts => bskip is_semi ts (fun ts => BOk (YReturn e) ts))                    (* 1141-1156 *)
      | KW WIf :: ts =>                                                                                                               (* 1158-1172 *)
          bbind (p_paren ts) (fun c ts => bbind (p_stmt f ts) (fun a ts =>
          match ts with KW WElse :: ts => bbind (p_stmt f ts) (fun b ts => BOk (YIfElse c a b) ts) | _ => BOk (YIf c a) ts end))
      | KW WSwitch :: ts => bbind (p_paren ts) (fun c ts => bbind (p_stmt f ts) (fun s ts => BOk (YSwitch c s) ts))                   (* 1174-1193 *)
      | KW WCase :: ts =>                                                                                                             (* 1195-1223 *)
          bbind (p_const ts) (fun lo ts =>
          let body hi ts := bskip is_colon ts (fun ts => bbind (p_stmt f ts) (fun s ts => BOk (YCase lo hi s) ts)) in
          match ts with KP Ellipsis :: ts => bbind (p_const ts) (fun hi ts => body (Some hi) ts) | _ => body None ts end)
      | KDefault :: ts => bskip is_colon ts (fun ts => bbind (p_stmt f ts) (fun s ts => BOk (YDefault s) ts))                         (* 1225-1236 *)
      | KW WFor :: ts =>                                                                                                              (* 1238-1273 *)
          bskip is_lpar ts (fun ts => bbind (p_for_init ts) (fun i ts =>
          bbind (p_opt is_semi ts) (fun c ts => bskip is_semi ts (fun ts =>
          bbind (p_opt is_rpar ts) (fun inc ts => bskip is_rpar ts (fun ts =>
          bbind (p_stmt f ts) (fun s ts => BOk (YFor i c inc s) ts)))))))
      | KW WWhile :: ts => bbind (p_paren ts) (fun c ts => bbind (p_stmt f ts) (fun s ts => BOk (YWhile c s) ts))                     (* 1275-1296 *)
      | KW WDo :: ts =>                                                                                                               (* 1298-1322 *)
          bbind (p_stmt f ts) (fun s ts => bskip is_while ts (fun ts => bbind (p_paren ts) (fun c ts => bskip is_semi ts (fun ts => BOk (YDo s c) ts))))
      | KW WAsm :: ts =>                                                                                                              (* 1103-1121 *)
          bskip is_lpar (quals ts) (fun ts => match ts with KStr a :: ts => bskip is_rpar ts (fun ts => BOk (YAsm a) ts) | _ => BErr end)
      | KW WGoto :: KP Star :: ts => bbind (p_expr ts) (fun e ts => bskip is_semi ts (fun ts => BOk (YGotoP e) ts))                   (* 1328-1334 *)
      | KW WGoto :: KId l :: ts => bskip is_semi ts (fun ts => BOk (YGoto l) ts)                                                      (* 1336-1342 *)
      | KW WGoto :: _ => BErr
      | KW WBreak :: ts => bskip is_semi ts (fun ts => BOk YBreak ts)                                                                 (* 1344-1352 *)
      | KW WContinue :: ts => bskip is_semi ts (fun ts => BOk YContinue ts)                                                           (* 1354-1362 *)
      | KId l :: KP Colon :: ts => bbind (p_stmt f ts) (fun s ts => BOk (YLabel l s) ts)                                              (* 1364-1374 *)
      | KP LBrace :: ts => bbind (p_items f ts) (fun b ts => BOk (YBlock b) ts)                                                       (* 1376-1377 *)
      | _ => p_expr_stmt ts
      end
  end
(** After the opening brace. A type name before a colon is a label there; type names are
    not KId here, and that is not modelled (BErr). Nor are typedefs, function declarations and
    extern in blocks. *)
with p_items (f : nat) (ts : list tok) {struct f} : bres items :=
  match f with
  | O => BFuel
  | S f =>
      match ts with
      | KP RBrace :: ts => BOk INil ts
      | KType _ :: KP Colon :: _ => BErr
      | KType t :: ts => bbind (p_declaration ts) (fun l ts => bbind (p_items f ts) (fun r ts => BOk (IDecl t l r) ts))
      | _ => bbind (p_stmt f ts) (fun s ts => bbind (p_items f ts) (fun r ts => BOk (IStmt s r) ts))
      end
  end.
(** Two steps for every token are enough: proved *)
Definition parse_stmt (ts : list tok) : bres ss := p_stmt (2 * length ts + 1) ts.
(** The body of a function, after its opening brace (parser.c:1505) *)
Definition parse_body (ts : list tok) : bres items := p_items (2 * length ts + 2) ts.
