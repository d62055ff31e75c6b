(** Model of statements: stmt and resolve_goto_labels of /repo/parser/parser.c, gen_stmt
    of /repo/codegen.c. Not modelled: asm statements, `goto *p` and labels as values,
    return of structures, statements as expressions, scopes (names are resolved:
    variables are numbers in the expressions). *)
From Verif Require Import Base TypeModel IntArith NodeModel ValSpec RvSpec GenModel StmtSpec.

(** ** The tree: struct Node, statement kinds (toycc.h). Unique labels are the numbers of
    new_unique_name. [XNamed]: a goto before resolve_goto_labels. ND_BLOCK is a nest of
    [XSeq]; gen_stmt only concatenates its statements. *)
Inductive snode :=
  | XSkip
  | XExpr (e : node)
  | XSeq (a b : snode)
  | XIf (c : node) (a b : snode)
  | XSwitch (c : node) (cases : list (Z * Z * Z)) (dflt : option Z) (brk : Z) (b : snode)
  | XCase (l : Z) (s : snode)
  | XFor (init : list node) (c inc : option node) (b : snode) (brk cont : Z)
  | XDo (b : snode) (c : node) (brk cont : Z)
  | XNamed (l : bytes)
  | XGoto (u : Z)
  | XLabel (l : bytes) (u : Z) (s : snode)
  | XReturn (e : option node).

(** The static variables of the parser: the counter of new_unique_name (common.c:295-300),
    case_next and default_case of current_switch, `labels` *)
Record pst := PS { p_uniq : Z; p_cases : list (Z * Z * Z); p_dflt : option Z; p_labels : list (bytes * Z) }.
Definition next (st : pst) : pst := PS (p_uniq st + 1) (p_cases st) (p_dflt st) (p_labels st).

Section Parse.
Variable rt : ty.                  (* current_fn->ty->return_ty *)
Variable uses : node -> nat.       (* unique names made while an expression is parsed (string literals) *)
Definition tick (e : node) (st : pst) : pst := PS (p_uniq st + Z.of_nat (uses e)) (p_cases st) (p_dflt st) (p_labels st).
Definition tick_opt (e : option node) (st : pst) : pst := match e with Some e => tick e st | None => st end.

(** parser.c:1139-1377 stmt. [brk], [cont]: brk_label, cont_label; [sw]: current_switch is
    not NULL. None: one of the errors. *)
Fixpoint parse (brk cont : option Z) (sw : bool) (s : stmt) (st : pst) : option (snode * pst) :=
  match s with
  | SSkip => Some (XSkip, st)
  | SExpr e => Some (XExpr e, tick e st)
  | SSeq a b =>
      let* (a, st) := parse brk cont sw a st in
      let* (b, st) := parse brk cont sw b st in Some (XSeq a b, st)
  | SReturn None => Some (XReturn None, st)
  | SReturn (Some e) =>                                                (* 1143-1156 *)
      if is_struct_union rt then None else Some (XReturn (Some (NCast rt e)), tick e st)
  | SIf c a b =>                                                       (* 1158-1172 *)
      let* (a, st) := parse brk cont sw a (tick c st) in
      let* (b, st) := parse brk cont sw b st in Some (XIf c a b, st)
  | SSwitch c b =>                                                     (* 1174-1193 *)
      let st := tick c st in
      let u := p_uniq st in
      let* (b, st') := parse (Some u) cont true b (PS (u + 1) [] None (p_labels st)) in
      Some (XSwitch c (p_cases st') (p_dflt st') u b, PS (p_uniq st') (p_cases st) (p_dflt st) (p_labels st'))
  | SCase lo hi s =>                                                   (* 1195-1223 *)
      if negb sw then None else
      let begin := sx 32 lo in let end_ := sx 32 hi in
      if end_ <? begin then None else
      let u := p_uniq st in
      let* (s, st) := parse brk cont sw s (next st) in
      Some (XCase u s, PS (p_uniq st) ((begin, end_, u) :: p_cases st) (p_dflt st) (p_labels st))
  | SDefault s =>                                                      (* 1225-1236 *)
      if negb sw then None else
      let u := p_uniq st in
      let* (s, st) := parse brk cont sw s (next st) in
      Some (XCase u s, PS (p_uniq st) (p_cases st) (Some u) (p_labels st))
  | SFor init c inc b =>                                               (* 1238-1273 *)
      let u := p_uniq st in
      let st := fold_left (fun st e => tick e st) init (next (next st)) in
      let st := tick_opt inc (tick_opt c st) in
      let* (b, st) := parse (Some u) (Some (u + 1)) sw b st in Some (XFor init c inc b u (u + 1), st)
  | SWhile c b =>                                                      (* 1275-1296 *)
      let st := tick c st in
      let u := p_uniq st in
      let* (b, st) := parse (Some u) (Some (u + 1)) sw b (next (next st)) in Some (XFor [] (Some c) None b u (u + 1), st)
  | SDo b c =>                                                         (* 1298-1322 *)
      let u := p_uniq st in
      let* (b, st) := parse (Some u) (Some (u + 1)) sw b (next (next st)) in Some (XDo b c u (u + 1), tick c st)
  | SGoto l => Some (XNamed l, st)                                     (* 1327-1342 *)
  | SBreak => let* u := brk in Some (XGoto u, st)                      (* 1344-1352 *)
  | SContinue => let* u := cont in Some (XGoto u, st)                  (* 1354-1362 *)
  | SLabel l s =>                                                      (* 1364-1374 *)
      let u := p_uniq st in
      let* (s, st) := parse brk cont sw s (next st) in
      Some (XLabel l u s, PS (p_uniq st) (p_cases st) (p_dflt st) ((l, u) :: p_labels st))
  end.
End Parse.

(** parser.c:1407-1423 resolve_goto_labels: the first label of the list with that name *)
Fixpoint lookup (labels : list (bytes * Z)) (l : bytes) : option Z :=
  match labels with [] => None | (l', u) :: r => if beq l l' then Some u else lookup r l end.
Fixpoint resolve (labels : list (bytes * Z)) (x : snode) : option snode :=
  match x with
  | XNamed l => let* u := lookup labels l in Some (XGoto u)
  | XSeq a b => let* a := resolve labels a in let* b := resolve labels b in Some (XSeq a b)
  | XIf c a b => let* a := resolve labels a in let* b := resolve labels b in Some (XIf c a b)
  | XSwitch c cs d u b => let* b := resolve labels b in Some (XSwitch c cs d u b)
  | XCase u s => let* s := resolve labels s in Some (XCase u s)
  | XFor i c n b u v => let* b := resolve labels b in Some (XFor i c n b u v)
  | XDo b c u v => let* b := resolve labels b in Some (XDo b c u v)
  | XLabel l u s => let* s := resolve labels s in Some (XLabel l u s)
  | XSkip | XExpr _ | XGoto _ | XReturn _ => Some x
  end.
(** The body of a function, as in parser.c:1439-1512 *)
Definition parse_body (rt : ty) (uses : node -> nat) (s : stmt) (u : Z) : option (snode * Z) :=
  let* (x, st) := parse rt uses None None false s (PS u [] None []) in
  let* x := resolve (p_labels st) x in Some (x, p_uniq st).

(** ** codegen.c:1642-1797 gen_stmt *)
Section GenStmt.
Variable goff : nat -> Z.
Variable fname : bytes.            (* current_fn->name *)
Definition U (u : Z) : label := name (LUniq u).
Definition case_code (c : Z * Z * Z) : list instr :=
  let '(begin, end_, u) := c in
  if begin =? end_ then [ILi A1 begin; IBr BEQ A0 A1 (U u)]
  else [Mv T1 A0; ILi T0 begin; IOp SUB T1 T1 T0; ILi T2 (end_ - begin); IBr BLEU T1 T2 (U u)].
Fixpoint gens (l : list node) : G := match l with [] => emit [] | e :: l => gen goff false e ;; gens l end.
Definition gen_opt (e : option node) : G := gens (match e with Some e => [e] | None => [] end).
Definition gen_test (c : node) (br : reg -> label -> instr) (l : label) : G :=
  gen goff false c ;; cmp_zero (ntype c) ;; emit [br A0 l].

Fixpoint gen_stmt (x : snode) : G :=
  match x with
  | XSkip => emit []
  | XExpr e => gens [e]
  | XSeq a b => gen_stmt a ;; gen_stmt b
  | XIf c a b =>
      with_count (fun n =>
        gen_test c Bnez (name (LElse n)) ;; gen_stmt a ;;
        emit [IJ (name (LEnd n)); Lab (LElse n)] ;; gen_stmt b ;; emit [Lab (LEnd n)])
  | XFor init c inc b brk cont =>
      with_count (fun n =>
        gens init ;; emit [Lab (LBegin n)] ;;
        match c with Some c => gen_test c Bnez (U brk) | None => emit [] end ;;
        gen_stmt b ;; emit [ILabel (U cont)] ;; gen_opt inc ;; emit [IJ (name (LBegin n)); ILabel (U brk)])
  | XDo b c brk cont =>
      with_count (fun n =>
        emit [Lab (LBegin n)] ;; gen_stmt b ;; emit [ILabel (U cont)] ;;
        gen_test c Beqz (name (LBegin n)) ;; emit [ILabel (U brk)])
  | XSwitch c cases dflt brk b =>
      gen goff false c ;; emit (flat_map case_code cases) ;;
      emit (match dflt with Some u => [IJ (U u)] | None => [] end) ;; emit [IJ (U brk)] ;;
      gen_stmt b ;; emit [ILabel (U brk)]
  | XCase u s => emit [ILabel (U u)] ;; gen_stmt s
  | XGoto u => emit [IJ (U u)]
  | XNamed _ => fail                                 (* not after resolve_goto_labels *)
  | XLabel _ u s => emit [ILabel (U u)] ;; gen_stmt s
  | XReturn e => gen_opt e ;; emit [IJ (name (LReturn fname))]
  end.
End GenStmt.
