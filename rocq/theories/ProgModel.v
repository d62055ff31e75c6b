(** Model of function definitions: /repo/parser/parser.c:1390-1400 (create_param_lvars),
    1439-1512 (function), 1591-1624 (parser), scope.c:35-82 and 98-151: from the file-scope
    declarations and the tokens of the bodies to the functions of FrameModel, which
    [FrameModel.compile_program] translates. A declaration comes as declarator() leaves it: a
    name, its type, the names and types of the parameters (see DeclModel); the tokens of a body
    are those after its opening brace, with its closing brace.
    Not modelled: static and inline functions, variable arguments, struct results, global
    initializers, typedefs and tags (they are in [x_type] and [x_mems] of the context). *)
From Verif Require Import Base TypeModel NodeModel ParseModel BlockModel FrontModel StmtSpec BodyModel.
From Verif Require ScopeModel FrameModel.
Local Notation length := List.length.

Inductive edecl :=
  | EdVar (n : bytes) (t : ty)
  | EdProto (n : bytes) (ret : ty) (ps : list ty)
  | EdFun (n : bytes) (ret : ty) (ps : list (bytes * ty)) (body : list tok).

(** ** Names *)
(** scope.c:98-104 push_scope, 107-117 new_var, 128-139 new_gvar: an entry in the innermost scope *)
Definition push_ent (n : bytes) (v : ent) (st : bst) : option bst :=
  let x := b_ctx st in let z := b_next st in
  match ScopeModel.do_sop (ScopeModel.OpVar n z) (x_scope x) with
  | ScopeModel.SOk c => Some (BS (with_ctx x c (fun y => if y =? z then v else x_ent x y)) (z + 1) (b_str st) (b_loc st) (b_vars st))
  | _ => None
  end.
Definition func_ent (n : bytes) (ret : ty) (ps : list ty) : ent := EVar (VGlobal n) (TFunc ret) (Some (ps, false)).
(** parser.c:1447-1467: find_func (scope.c:69-82; here the innermost scope is that of the
    file), the first declaration makes the entry *)
Definition declare (n : bytes) (ret : ty) (ps : list ty) (st : bst) : option bst :=
  match find_ent (b_ctx st) n with
  | Some (EVar (VGlobal _) (TFunc _) _) => Some st
  | _ => push_ent n (func_ent n ret ps) st
  end.
(** parser.c:1390-1400 create_param_lvars *)
Fixpoint param_lvars (ps : list (bytes * ty)) (st : bst) : option bst :=
  match ps with [] => Some st | (n, t) :: ps => let* st := param_lvars ps st in new_lvar n t st end.
(** parser.c:1497-1504: __func__ and __FUNCTION__, strings *)
Definition func_name (s n : bytes) (st : bst) : option bst :=
  let v := EVar (VGlobal (x_anon (b_ctx st) (b_str st))) (TArr (TChar false) (Z.of_nat (length n) + 1)) None in
  let* st := push_ent s v st in Some (BS (b_ctx st) (b_next st) (S (b_str st)) (b_loc st) (b_vars st)).

(** ** fn->locals *)
(** In BodyModel a local variable is known by when it was made; in FrameModel by where it is
    in fn->locals, where the last one made is the first (scope.c:119-126). *)
Fixpoint map_vars (f : var -> var) (n : node) : node :=
  match n with
  | NNull => NNull
  | NNum t v => NNum t v
  | NVar x t => NVar (f x) t
  | NMember l m => NMember (map_vars f l) m
  | NDeref l => NDeref (map_vars f l)
  | NAddr l => NAddr (map_vars f l)
  | NAssign l r => NAssign (map_vars f l) (map_vars f r)
  | NComma l r => NComma (map_vars f l) (map_vars f r)
  | NCast t l => NCast t (map_vars f l)
  | NCond c a b => NCond (map_vars f c) (map_vars f a) (map_vars f b)
  | NNeg t l => NNeg t (map_vars f l)
  | NNot l => NNot (map_vars f l)
  | NBitNot l => NBitNot (map_vars f l)
  | NLogAnd l r => NLogAnd (map_vars f l) (map_vars f r)
  | NLogOr l r => NLogOr (map_vars f l) (map_vars f r)
  | NBin o t l r => NBin o t (map_vars f l) (map_vars f r)
  | NMemzero x t => NMemzero (f x) t
  | NCall g args t => NCall (map_vars f g) (map (map_vars f) args) t
  end.
Fixpoint map_svars (f : var -> var) (s : stmt) : stmt :=
  match s with
  | SSkip => SSkip
  | SExpr e => SExpr (map_vars f e)
  | SSeq a b => SSeq (map_svars f a) (map_svars f b)
  | SIf c a b => SIf (map_vars f c) (map_svars f a) (map_svars f b)
  | SSwitch c b => SSwitch (map_vars f c) (map_svars f b)
  | SCase lo hi s => SCase lo hi (map_svars f s)
  | SDefault s => SDefault (map_svars f s)
  | SFor i c inc b => SFor (map (map_vars f) i) (option_map (map_vars f) c) (option_map (map_vars f) inc) (map_svars f b)
  | SWhile c b => SWhile (map_vars f c) (map_svars f b)
  | SDo b c => SDo (map_svars f b) (map_vars f c)
  | SGoto l => SGoto l
  | SBreak => SBreak
  | SContinue => SContinue
  | SLabel l s => SLabel l (map_svars f s)
  | SReturn e => SReturn (option_map (map_vars f) e)
  end.
Definition position (N : nat) (v : var) : var := match v with VLocal q => VLocal (N - 1 - q) | VGlobal s => VGlobal s end.

(** var->ty of the locals of a body. BodyModel keeps only their numbers: the types of the
    declared variables are those of the declarators, in their order; a temporary has the type
    of the node that uses it (type.c and parser.c: new_var_node(var) has var->ty). A
    simplification: BodyModel does not make the temporaries of the operand of sizeof. *)
Definition dcl_type (base : ty) (d : dcl) : ty := let 'Dcl s _ _ := d in Nat.iter s TPtr base.
Section Types.
Variable x_type : bytes -> option ty.
Definition decl_types (t : bytes) (l : list dcl) : list ty := match x_type t with Some base => map (dcl_type base) l | None => [] end.
Definition first_types (i : finit) : list ty := match i with FDecl t l => decl_types t l | _ => [] end.
Fixpoint stmt_types (s : ss) : list ty :=
  match s with
  | YEmpty | YExpr _ | YAsm _ | YGotoP _ | YGoto _ | YBreak | YContinue | YReturn _ => []
  | YBlock b => items_types b
  | YIf _ a | YSwitch _ a | YCase _ _ a | YDefault a | YWhile _ a | YDo a _ | YLabel _ a => stmt_types a
  | YIfElse _ a b => stmt_types a ++ stmt_types b
  | YFor i _ _ a => first_types i ++ stmt_types a
  end
with items_types (b : items) : list ty :=
  match b with INil => [] | IStmt s r => stmt_types s ++ items_types r | IDecl t l r => decl_types t l ++ items_types r end.
End Types.
Fixpoint type_in (q : nat) (n : node) : option ty :=
  match n with
  | NNull | NNum _ _ | NMemzero _ _ | NVar (VGlobal _) _ => None
  | NVar (VLocal p) t => if Nat.eqb p q then Some t else None
  | NMember l _ | NDeref l | NAddr l | NCast _ l | NNeg _ l | NNot l | NBitNot l => type_in q l
  | NAssign l r | NComma l r | NLogAnd l r | NLogOr l r | NBin _ _ l r => orelse (type_in q l) (type_in q r)
  | NCond c a b => orelse (type_in q c) (orelse (type_in q a) (type_in q b))
  | NCall f args _ => orelse (type_in q f) ((fix go l := match l with [] => None | a :: l => orelse (type_in q a) (go l) end) args)
  end.
Definition type_in_opt (q : nat) (n : option node) : option ty := match n with Some n => type_in q n | None => None end.
Fixpoint type_in_stmt (q : nat) (s : stmt) : option ty :=
  match s with
  | SSkip | SGoto _ | SBreak | SContinue => None
  | SExpr e => type_in q e
  | SSeq a b => orelse (type_in_stmt q a) (type_in_stmt q b)
  | SIf c a b => orelse (type_in q c) (orelse (type_in_stmt q a) (type_in_stmt q b))
  | SSwitch c b | SWhile c b | SDo b c => orelse (type_in q c) (type_in_stmt q b)
  | SCase _ _ s | SDefault s | SLabel _ s => type_in_stmt q s
  | SFor i c inc b => orelse (fold_right (fun n r => orelse (type_in q n) r) None i) (orelse (type_in_opt q c) (orelse (type_in_opt q inc) (type_in_stmt q b)))
  | SReturn e => type_in_opt q e
  end.
Fixpoint index_of (q : nat) (l : list nat) : option nat :=
  match l with [] => None | p :: l => if Nat.eqb p q then Some O else option_map S (index_of q l) end.
(** [TVoid]: nothing says which *)
Definition local_type (types : list ty) (vars : list nat) (s : stmt) (q : nat) : ty :=
  match index_of q vars with Some i => nth i types TVoid | None => match type_in_stmt q s with Some t => t | None => TVoid end end.

(** ** Functions *)
(** parser.c:1476-1511; also the types of the temporaries of the function *)
Definition function_body (n : bytes) (rt : ty) (ps : list (bytes * ty)) (body : list tok) (st : bst) : option ((FrameModel.func * list ty) * bst) :=
  let* st := scope_op ScopeModel.OpEnter st in
  let* st := param_lvars ps st in
  let* st := new_lvar (bs "__alloca_size__") (TPtr (TChar false)) st in
  let* st := func_name (bs "__func__") n st in
  let* st := func_name (bs "__FUNCTION__") n st in
  match parse_body body with
  | BOk b [] =>
      let k0 := b_loc st in
      let* st := scope_op ScopeModel.OpEnter (BS (b_ctx st) (b_next st) (b_str st) k0 []) in
      let* (s, st) := b_items b st in
      let vars := b_vars st in let N := b_loc st in
      let* st := scope_op ScopeModel.OpLeave st in
      let* st := scope_op ScopeModel.OpLeave st in
      let type_of := local_type (items_types (x_type (b_ctx st)) b) vars s in
      Some (FrameModel.Func n rt (map (fun p => FrameModel.plain (snd p)) ps) false (map (fun q => FrameModel.plain (type_of q)) (rev (seq k0 (N - k0)))) (map_svars (position N) s),
            map type_of (filter (fun q => negb (existsb (Nat.eqb q) vars)) (seq k0 (N - k0))),
            BS (b_ctx st) (b_next st) (b_str st) 0 [])
  | _ => None
  end.
Definition return_type (n : bytes) (st : bst) : option ty := match find_ent (b_ctx st) n with Some (EVar _ (TFunc r) _) => Some r | _ => None end.
Definition external (d : edecl) (st : bst) : option (list (FrameModel.func * list ty) * bst) :=
  match d with
  | EdVar n t => let* st := push_ent n (EVar (VGlobal n) t None) st in Some ([], st)
  | EdProto n ret ps => let* st := declare n ret ps st in Some ([], st)
  | EdFun n ret ps body =>
      let* st := declare n ret (map snd ps) st in
      let* rt := return_type n st in
      let* (f, st) := function_body n rt ps body st in Some ([f], st)
  end.
(** parser.c:1598-1615, the loop of parser *)
Fixpoint externals (ds : list edecl) (st : bst) : option (list (FrameModel.func * list ty)) :=
  match ds with
  | [] => Some []
  | d :: ds => let* (f, st) := external d st in let* r := externals ds st in Some (f ++ r)
  end.
(** The state before the first declaration; declare_builtin_functions (declarator.c:991) is left
    out *)
Definition start (x : ctx) : bst := BS (with_ctx x ScopeModel.chain0 (x_ent x)) 0 0 0 [].
