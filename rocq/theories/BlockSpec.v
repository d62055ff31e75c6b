(** The grammar of statements (C11 6.8, blocks 6.8.2, declarations 6.7), with the GNU forms
    case a ... b, goto *p and asm. *)
From Verif Require Import Base NodeModel ParseModel ParseSpec BlockModel.

(** An else belongs to the lexically nearest preceding if that is allowed by the syntax
    (6.8.4.1p3): the statement between if and else cannot end with an if that has none *)
Fixpoint dangling (s : ss) : bool :=
  match s with
  | YIf _ _ => true
  | YIfElse _ _ b => dangling b
  | YSwitch _ s | YCase _ _ s | YDefault s | YFor _ _ _ s | YWhile _ s | YLabel _ s => dangling s
  | _ => false
  end.

Inductive initial (m : mode) : list tok -> dinit -> Prop :=
  | i_expr ts e : gr m GAssign ts e -> initial m ts (DExpr e)
  | i_brace i : initial m [KBrace i] (DBrace i).
Inductive declarator (m : mode) : list tok -> dcl -> Prop :=
  | d_plain n x : declarator m (repeat (KP Star) n ++ [KId x]) (Dcl n x None)
  | d_init n x ts i : initial m ts i -> declarator m (repeat (KP Star) n ++ KId x :: KP PEq :: ts) (Dcl n x (Some i)).
Inductive declarators (m : mode) : list tok -> list dcl -> Prop :=
  | ds_one ts d : declarator m ts d -> declarators m ts [d]
  | ds_more ts d us l : declarator m ts d -> declarators m us l -> declarators m (ts ++ KP Comma :: us) (d :: l).
Inductive declaration (m : mode) : list tok -> list dcl -> Prop :=
  | dn_some ts l : declarators m ts l -> declaration m (ts ++ [KP Semi]) l
  | dn_none : declaration m [KP Semi] [].
Inductive optional (m : mode) : list tok -> option sx -> Prop :=
  | o_none : optional m [] None
  | o_some ts e : gr m GExpr ts e -> optional m ts (Some e).
Inductive for_first (m : mode) : list tok -> finit -> Prop :=
  | ff_none : for_first m [KP Semi] FNone
  | ff_expr ts e : gr m GExpr ts e -> for_first m (ts ++ [KP Semi]) (FExpr e)
  | ff_decl t ts l : declaration m ts l -> for_first m (KType t :: ts) (FDecl t l).

(** C11: the grammar. Taken: without asm, which is read up to its closing parenthesis only.
    Loose: with more. The modes of the expressions are those of ParseSpec. *)
Inductive stm (m : mode) : list tok -> ss -> Prop :=
  | y_empty : stm m [KP Semi] YEmpty
  | y_expr ts e : gr m GExpr ts e -> stm m (ts ++ [KP Semi]) (YExpr e)
  | y_block ts b : blk m ts b -> stm m (KP LBrace :: ts ++ [KP RBrace]) (YBlock b)
  | y_if t c u s : gr m GExpr t c -> stm m u s -> stm m (KW WIf :: KP LPar :: t ++ KP RPar :: u) (YIf c s)
  | y_if_else t c u a v b : gr m GExpr t c -> stm m u a -> dangling a = false -> stm m v b ->
      stm m (KW WIf :: KP LPar :: t ++ KP RPar :: u ++ KW WElse :: v) (YIfElse c a b)
  | y_switch t c u s : gr m GExpr t c -> stm m u s -> stm m (KW WSwitch :: KP LPar :: t ++ KP RPar :: u) (YSwitch c s)
  | y_case t lo u s : gr m GCond t lo -> stm m u s -> stm m (KW WCase :: t ++ KP Colon :: u) (YCase lo None s)
  | y_range t lo v hi u s : gr m GCond t lo -> gr m GCond v hi -> stm m u s -> stm m (KW WCase :: t ++ KP Ellipsis :: v ++ KP Colon :: u) (YCase lo (Some hi) s)
  | y_default u s : stm m u s -> stm m (KDefault :: KP Colon :: u) (YDefault s)
  | y_for t i v c w inc u s : for_first m t i -> optional m v c -> optional m w inc -> stm m u s ->
      stm m (KW WFor :: KP LPar :: t ++ v ++ KP Semi :: w ++ KP RPar :: u) (YFor i c inc s)
  | y_while t c u s : gr m GExpr t c -> stm m u s -> stm m (KW WWhile :: KP LPar :: t ++ KP RPar :: u) (YWhile c s)
  | y_do t c u s : stm m u s -> gr m GExpr t c -> stm m (KW WDo :: u ++ KW WWhile :: KP LPar :: t ++ [KP RPar; KP Semi]) (YDo s c)
  | y_asm n a : m <> Taken -> stm m (KW WAsm :: repeat (KW WQual) n ++ [KP LPar; KStr a; KP RPar; KP Semi]) (YAsm a)
  | l_asm n a : m = Loose -> stm m (KW WAsm :: repeat (KW WQual) n ++ [KP LPar; KStr a; KP RPar]) (YAsm a)
  | y_goto_ptr t e : gr m GExpr t e -> stm m (KW WGoto :: KP Star :: t ++ [KP Semi]) (YGotoP e)
  | y_goto l : stm m [KW WGoto; KId l; KP Semi] (YGoto l)
  | y_break : stm m [KW WBreak; KP Semi] YBreak
  | y_continue : stm m [KW WContinue; KP Semi] YContinue
  | y_label l u s : stm m u s -> stm m (KId l :: KP Colon :: u) (YLabel l s)
  | y_return t e : optional m t e -> stm m (KW WReturn :: t ++ [KP Semi]) (YReturn e)
with blk (m : mode) : list tok -> items -> Prop :=
  | b_nil : blk m [] INil
  | b_stmt t s u r : stm m t s -> blk m u r -> blk m (t ++ u) (IStmt s r)
  | b_decl ty t l u r : declaration m t l -> blk m u r -> blk m (KType ty :: t ++ u) (IDecl ty l r).

(** Equal up to the association of commas in expressions *)
Definition inorm (i : dinit) : dinit := match i with DExpr e => DExpr (norm e) | DBrace b => DBrace b end.
Definition dnorm (d : dcl) : dcl := let 'Dcl n x i := d in Dcl n x (option_map inorm i).
Definition fnorm (i : finit) : finit := match i with FNone => FNone | FExpr e => FExpr (norm e) | FDecl t l => FDecl t (map dnorm l) end.
Fixpoint ynorm (s : ss) : ss :=
  match s with
  | YExpr e => YExpr (norm e)
  | YBlock b => YBlock (bnorm b)
  | YIf c a => YIf (norm c) (ynorm a)
  | YIfElse c a b => YIfElse (norm c) (ynorm a) (ynorm b)
  | YSwitch c s => YSwitch (norm c) (ynorm s)
  | YCase lo hi s => YCase (norm lo) (option_map norm hi) (ynorm s)
  | YDefault s => YDefault (ynorm s)
  | YFor i c inc s => YFor (fnorm i) (option_map norm c) (option_map norm inc) (ynorm s)
  | YWhile c s => YWhile (norm c) (ynorm s)
  | YDo s c => YDo (ynorm s) (norm c)
  | YGotoP e => YGotoP (norm e)
  | YLabel l s => YLabel l (ynorm s)
  | YReturn e => YReturn (option_map norm e)
  | YEmpty | YAsm _ | YGoto _ | YBreak | YContinue => s
  end
with bnorm (b : items) : items :=
  match b with INil => INil | IStmt s r => IStmt (ynorm s) (bnorm r) | IDecl t l r => IDecl t (map dnorm l) (bnorm r) end.
Definition same_stmt (a b : ss) : Prop := ynorm a = ynorm b.
Definition same_block (a b : items) : Prop := bnorm a = bnorm b.
Definition no_else (rest : list tok) : Prop := match rest with KW WElse :: _ => False | _ => True end.

(** ** Printing *)
Definition init_text (i : dinit) : list tok := match i with DExpr e => wrap GAssign e (text e) | DBrace b => [KBrace b] end.
Definition dcl_text (d : dcl) : list tok :=
  let 'Dcl n x i := d in repeat (KP Star) n ++ KId x :: match i with None => [] | Some i => KP PEq :: init_text i end.
Fixpoint dcls_text (l : list dcl) : list tok := match l with [] => [] | [d] => dcl_text d | d :: l => dcl_text d ++ KP Comma :: dcls_text l end.
Definition opt_text (e : option sx) : list tok := match e with Some e => text e | None => [] end.
Definition first_text (i : finit) : list tok := match i with FNone => [KP Semi] | FExpr e => text e ++ [KP Semi] | FDecl t l => KType t :: dcls_text l ++ [KP Semi] end.
Fixpoint stmt_text (s : ss) : list tok :=
  match s with
  | YEmpty => [KP Semi]
  | YExpr e => text e ++ [KP Semi]
  | YBlock b => KP LBrace :: block_text b ++ [KP RBrace]
  | YIf c a => KW WIf :: KP LPar :: text c ++ KP RPar :: stmt_text a
  | YIfElse c a b => KW WIf :: KP LPar :: text c ++ KP RPar :: stmt_text a ++ KW WElse :: stmt_text b
  | YSwitch c s => KW WSwitch :: KP LPar :: text c ++ KP RPar :: stmt_text s
  | YCase lo None s => KW WCase :: wrap GCond lo (text lo) ++ KP Colon :: stmt_text s
  | YCase lo (Some hi) s => KW WCase :: wrap GCond lo (text lo) ++ KP Ellipsis :: wrap GCond hi (text hi) ++ KP Colon :: stmt_text s
  | YDefault s => KDefault :: KP Colon :: stmt_text s
  | YFor i c inc s => KW WFor :: KP LPar :: first_text i ++ opt_text c ++ KP Semi :: opt_text inc ++ KP RPar :: stmt_text s
  | YWhile c s => KW WWhile :: KP LPar :: text c ++ KP RPar :: stmt_text s
  | YDo s c => KW WDo :: stmt_text s ++ KW WWhile :: KP LPar :: text c ++ [KP RPar; KP Semi]
  | YAsm a => [KW WAsm; KP LPar; KStr a; KP RPar; KP Semi]
  | YGotoP e => KW WGoto :: KP Star :: text e ++ [KP Semi]
  | YGoto l => [KW WGoto; KId l; KP Semi]
  | YBreak => [KW WBreak; KP Semi]
  | YContinue => [KW WContinue; KP Semi]
  | YLabel l s => KId l :: KP Colon :: stmt_text s
  | YReturn e => KW WReturn :: opt_text e ++ [KP Semi]
  end
with block_text (b : items) : list tok :=
  match b with INil => [] | IStmt s r => stmt_text s ++ block_text r | IDecl t l r => KType t :: dcls_text l ++ KP Semi :: block_text r end.
(** Trees that can be printed: each then-branch can be followed by its else; no asm *)
Definition proper_init (i : dinit) : bool := match i with DExpr e => proper e | DBrace _ => true end.
Definition proper_dcl (d : dcl) : bool := let 'Dcl _ _ i := d in match i with Some i => proper_init i | None => true end.
Definition proper_dcls (l : list dcl) : bool := forallb proper_dcl l.
Definition proper_opt (e : option sx) : bool := match e with Some e => proper e | None => true end.
Definition proper_first (i : finit) : bool := match i with FNone => true | FExpr e => proper e | FDecl _ l => proper_dcls l end.
Fixpoint proper_stmt (s : ss) : bool :=
  match s with
  | YEmpty | YGoto _ | YBreak | YContinue => true
  | YAsm _ => false
  | YExpr e | YGotoP e => proper e
  | YBlock b => proper_block b
  | YIf c a | YSwitch c a | YWhile c a | YDo a c => proper c && proper_stmt a
  | YIfElse c a b => proper c && negb (dangling a) && proper_stmt a && proper_stmt b
  | YCase lo hi s => proper lo && proper_opt hi && proper_stmt s
  | YDefault s | YLabel _ s => proper_stmt s
  | YFor i c inc s => proper_first i && proper_opt c && proper_opt inc && proper_stmt s
  | YReturn e => proper_opt e
  end
with proper_block (b : items) : bool :=
  match b with INil => true | IStmt s r => proper_stmt s && proper_block r | IDecl _ l r => proper_dcls l && proper_block r end.
