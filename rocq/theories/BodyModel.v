(** Model of how the body of a function gets its meaning: /repo/parser/parser.c:1072-1086 and
    1139-1377 (stmt), 1546-1588 (compound_stmt), /repo/parser/declarator.c:849-965
    (declaration), scope.c:93-126 (push_scope, new_lvar): from the trees of BlockModel to the
    statements of StmtSpec, which StmtModel.parse then gives labels and gen_stmt translates.
    In the code the three are one pass; what they share besides the tree is the counter of
    new_unique_name (here: [x_anon] for strings, [uses] of StmtModel.parse for labels). *)
From Verif Require Import Base TypeModel NodeModel EvalModel ParseModel BlockModel FrontModel GenModel StmtSpec.
From Verif Require ScopeModel StmtModel.
Local Notation length := List.length.

(** The static variables: the scopes and their entries (in [ctx]), of which [b_next] have been
    made; strings so far; locals so far, with the temporaries of expressions; those of them that
    are declared variables. The temporaries are also entered in the scope, under the empty name
    (type.c, parser.c: new_lvar with an empty name); that is left out, no identifier is empty. *)
Record bst := BS { b_ctx : ctx; b_next : Z; b_str : nat; b_loc : nat; b_vars : list nat }.
Definition with_ctx (x : ctx) (c : ScopeModel.chain) (e : Z -> ent) : ctx := Ctx c e (x_type x) (x_mems x) (x_anon x).
(** scope.c:35-46 enter_scope, leave_scope *)
Definition scope_op (o : ScopeModel.sop) (st : bst) : option bst :=
  match ScopeModel.do_sop o (x_scope (b_ctx st)) with
  | ScopeModel.SOk c => Some (BS (with_ctx (b_ctx st) c (x_ent (b_ctx st))) (b_next st) (b_str st) (b_loc st) (b_vars st))
  | _ => None
  end.
(** scope.c:106-126 new_var, new_lvar: a new entry in the innermost scope *)
Definition new_lvar (n : bytes) (t : ty) (st : bst) : option bst :=
  let x := b_ctx st in let z := b_next st in
  match ScopeModel.do_sop (ScopeModel.OpVar n z) (x_scope x) with
  | ScopeModel.SOk c =>
      Some (BS (with_ctx x c (fun y => if y =? z then EVar (VLocal (b_loc st)) t None else x_ent x y)) (z + 1) (b_str st) (S (b_loc st)) (b_vars st ++ [b_loc st]))
  | _ => None
  end.

(** parser.c:1061 expr with add_type: as [front] *)
Definition b_expr (e : sx) (st : bst) : option (node * bst) :=
  let* (c, j) := names (b_ctx st) e (b_str st) in
  let* (n, k) := elab c (b_loc st) in Some (n, BS (b_ctx st) (b_next st) j k (b_vars st)).
Definition b_opt (e : option sx) (st : bst) : option (option node * bst) :=
  match e with None => Some (None, st) | Some e => let* (n, st) := b_expr e st in Some (Some n, st) end.
(** parser.c:1010-1016 const_expr *)
Definition b_const (e : sx) (st : bst) : option (Z * bst) :=
  let* (n, st) := b_expr e st in match eval n with EOk v None => Some (v, st) | _ => None end.

(** declarator.c:849-857 compute_vla_size; None: there is an array of variable length in the
    type (not modelled) *)
Fixpoint vla_size (t : ty) : option node :=
  match t with
  | TPtr b | TArr b _ => let* n := vla_size b in Some (NComma NNull n)
  | TVla _ => None
  | _ => Some NNull
  end.
(** declarator.c:900-955, one turn of the loop: the expressions of the statements. Not
    modelled: static, alignment, declarators other than pointers, braces, initializers of
    structs by an expression *)
Definition b_declarator (base : ty) (d : dcl) (st : bst) : option (list node * bst) :=
  let 'Dcl s n i := d in
  let t := Nat.iter s TPtr base in
  match t with
  | TVoid | TFunc _ | TVla _ => None
  | _ =>
      if size_of t <? 0 then None else
      let* v := vla_size t in let k := b_loc st in
      let* st := new_lvar n t st in
      match i with
      | None => Some ([v], st)
      | Some (DExpr e) =>                                                          (* initializer.c:604-620 *)
          if is_struct_union t || match t with TArr _ _ => true | _ => false end then None else
          let* (r, st) := b_expr e st in
          let* a := mk_assign (NVar (VLocal k) t) r in Some ([v; NComma (NMemzero (VLocal k) t) a], st)
      | Some (DBrace _) => None
      end
  end.
Fixpoint b_declarators (base : ty) (l : list dcl) (st : bst) : option (list node * bst) :=
  match l with
  | [] => Some ([], st)
  | d :: l => let* (a, st) := b_declarator base d st in let* (r, st) := b_declarators base l st in Some (a ++ r, st)
  end.
Definition b_declaration (t : bytes) (l : list dcl) (st : bst) : option (list node * bst) :=
  let* base := x_type (b_ctx st) t in b_declarators base l st.
(** the ND_BLOCK of a declaration *)
Fixpoint seqs (l : list node) : stmt := match l with [] => SSkip | e :: l => SSeq (SExpr e) (seqs l) end.
Definition b_first (i : finit) (st : bst) : option (list node * bst) :=
  match i with
  | FNone => Some ([], st)
  | FExpr e => let* (n, st) := b_expr e st in Some ([n], st)
  | FDecl t l => b_declaration t l st
  end.

(** None: an error, or not modelled (asm, goto *p) *)
Fixpoint b_stmt (s : ss) (st : bst) : option (stmt * bst) :=
  match s with
  | YEmpty => Some (SSkip, st)
  | YExpr e => let* (n, st) := b_expr e st in Some (SExpr n, st)
  | YBlock b =>
      let* st := scope_op ScopeModel.OpEnter st in let* (s, st) := b_items b st in
      let* st := scope_op ScopeModel.OpLeave st in Some (s, st)
  | YIf c a => let* (n, st) := b_expr c st in let* (a, st) := b_stmt a st in Some (SIf n a SSkip, st)
  | YIfElse c a b => let* (n, st) := b_expr c st in let* (a, st) := b_stmt a st in let* (b, st) := b_stmt b st in Some (SIf n a b, st)
  | YSwitch c s => let* (n, st) := b_expr c st in let* (s, st) := b_stmt s st in Some (SSwitch n s, st)
  | YCase lo hi s =>
      let* (a, st) := b_const lo st in
      let* (b, st) := match hi with None => Some (a, st) | Some e => b_const e st end in
      let* (s, st) := b_stmt s st in Some (SCase a b s, st)
  | YDefault s => let* (s, st) := b_stmt s st in Some (SDefault s, st)
  | YFor i c inc s =>
      let* st := scope_op ScopeModel.OpEnter st in
      let* (i, st) := b_first i st in let* (c, st) := b_opt c st in let* (inc, st) := b_opt inc st in
      let* (s, st) := b_stmt s st in
      let* st := scope_op ScopeModel.OpLeave st in Some (SFor i c inc s, st)
  | YWhile c s => let* (n, st) := b_expr c st in let* (s, st) := b_stmt s st in Some (SWhile n s, st)
  | YDo s c => let* (s, st) := b_stmt s st in let* (n, st) := b_expr c st in Some (SDo s n, st)
  | YAsm _ | YGotoP _ => None
  | YGoto l => Some (SGoto l, st)
  | YBreak => Some (SBreak, st)
  | YContinue => Some (SContinue, st)
  | YLabel l s => let* (s, st) := b_stmt s st in Some (SLabel l s, st)
  | YReturn e => let* (e, st) := b_opt e st in Some (SReturn e, st)
  end
with b_items (b : items) (st : bst) : option (stmt * bst) :=
  match b with
  | INil => Some (SSkip, st)
  | IStmt s r => let* (s, st) := b_stmt s st in let* (r, st) := b_items r st in Some (SSeq s r, st)
  | IDecl t l r => let* (l, st) := b_declaration t l st in let* (r, st) := b_items r st in Some (SSeq (seqs l) r, st)
  end.

(** parser.c:1439-1512, the part of function() that is about the body: from the tokens after
    its opening brace to the statement tree with its labels, the tokens after it, and the
    numbers of the locals. [k]: the parameters, [u]: new_unique_name *)
Record compiled := Compiled { c_stmt : stmt; c_tree : StmtModel.snode; c_vars : list nat; c_locals : nat; c_uniq : Z; c_rest : list tok }.
Definition front_body (x : ctx) (next : Z) (rt : ty) (uses : node -> nat) (ts : list tok) (j k : nat) (u : Z) : option compiled :=
  match parse_body ts with
  | BOk b rest =>
      let* st := scope_op ScopeModel.OpEnter (BS x next j k []) in
      let* (s, st) := b_items b st in
      let* (t, u) := StmtModel.parse_body rt uses s u in
      Some (Compiled s t (b_vars st) (b_loc st) u rest)
  | _ => None
  end.
