(** Model of how the names, numbers, strings and members of an expression get their
    meaning, /repo/parser/parser.c:148-364 and 524-597: from the trees of ParseModel to
    those of NodeModel. *)
From Verif Require Import Base TypeModel NodeModel ParseModel.
From Verif Require ScopeModel LitModel.

(** ** Members *)
(** toycc.h struct Member; [kids]: the members of its type, if that is a struct or union *)
Inductive mtree := MT (name : option bytes) (m : minfo) (kids : list mtree).
Definition mt_name (x : mtree) := let 'MT n _ _ := x in n.
Definition mt_info (x : mtree) := let 'MT _ m _ := x in m.
Definition mt_kids (x : mtree) := let 'MT _ _ k := x in k.
(** parser.c:305-325 get_struct_member. [MCrash]: mem->name is NULL and used *)
Inductive mres := MNone | MCrash | MFound (x : mtree).
Definition anonymous (x : mtree) : bool := is_struct_union (m_ty (mt_info x)) && match mt_name x with None => true | Some _ => false end.
Section Find.
Variable n : bytes.
(** one member; [MNone]: go on *)
Fixpoint get_in (x : mtree) : mres :=
  let 'MT name m kids := x in
  let get := fix get (l : list mtree) : mres := match l with [] => MNone | y :: r => match get_in y with MNone => get r | res => res end end in
  if is_struct_union (m_ty m) && match name with None => true | Some _ => false end
  then match get kids with MFound _ => MFound x | res => res end
  else match name with None => MCrash | Some s => if beq s n then MFound x else MNone end.
Fixpoint get_struct_member (l : list mtree) : mres := match l with [] => MNone | y :: r => match get_in y with MNone => get_struct_member r | res => res end end.
(** parser.c:338-364 struct_ref: the members of the ND_MEMBER nodes, the outermost first.
    None: an error or a crash; [fuel]: how deep structs nest *)
Fixpoint struct_ref (fuel : nat) (l : list mtree) : option (list minfo) :=
  match fuel with
  | O => None
  | S fuel =>
      match get_struct_member l with
      | MFound (MT (Some _) m _) => Some [m]
      | MFound (MT None m kids) => let* p := struct_ref fuel kids in Some (m :: p)
      | _ => None
      end
  end.
End Find.
Fixpoint depth (x : mtree) : nat := let 'MT _ _ kids := x in S (fold_right (fun y k => Nat.max (depth y) k) O kids).
Definition depths (l : list mtree) : nat := fold_right (fun y k => Nat.max (depth y) k) O l.

(** ** What the compiler knows *)
(** scope.h struct VarScope: a variable or function, with the types of the parameters if it
    is (a pointer to) a function, and whether it is variadic; an enumeration constant; a
    type name *)
Inductive ent := EVar (x : var) (t : ty) (sig : option (list ty * bool)) | EConst (v : Z) | ETypedef.
Record ctx := Ctx {
  x_scope : ScopeModel.chain;
  x_ent : Z -> ent;                       (* the entries of the scopes *)
  x_type : bytes -> option ty;            (* what type names denote: declarator.c *)
  x_mems : nat -> list mtree;             (* the members of a struct or union, by its number *)
  x_anon : nat -> bytes }.                (* new_unique_name: the names of string literals *)
Definition members (x : ctx) (t : ty) : list mtree := match t with TStruct i _ _ | TUnion i _ _ => x_mems x i | _ => [] end.
Definition find_ent (x : ctx) (n : bytes) : option ent :=
  match ScopeModel.find_var (x_scope x) n with ScopeModel.SOk (Some z) => Some (x_ent x z) | _ => None end.
(** tokenize.c: the type of a number; tok->val is an int64_t, the value is meant modulo 2^64 *)
Definition ity_ty (t : LitModel.ity) : ty := match t with LitModel.Int => TInt false | LitModel.UInt => TInt true | LitModel.Long => TLong false | LitModel.ULong => TLong true end.
Definition num_val (t : LitModel.ity) (v : Z) : Z := match t with LitModel.ULong => v mod 2 ^ 64 | _ => v end.
Definition ulong (v : Z) : cexpr := CNum (TLong true) v.     (* new_ulong *)
(** node->ty. The operand of sizeof and the object of a member access are built before their
    type is known; the numbers of their temporaries do not matter for the type. *)
Definition node_type (c : cexpr) : option ty := let* (n, _) := elab c 0 in Some (ntype n).
Definition dots (c : cexpr) (p : list minfo) : cexpr := fold_left CDot p c.
(** The parameters of what is called: fn->ty->params. Only for a function or a variable, with
    * and & before it: the types of NodeModel have no parameters. *)
Fixpoint signature (x : ctx) (e : sx) : option (list ty * bool) :=
  match e with
  | XAtom (AId n) => match find_ent x n with Some (EVar _ _ s) => s | _ => None end
  | XUn UDeref e | XUn UAddr e => signature x e
  | _ => None
  end.

(** parser.c: what the grammar functions call for a tree of ParseModel. [j] numbers the
    string literals. None: an error, or not modelled: compound literals, labels as values,
    _Generic and type compatibility (TypeModel), the atomic builtins, floating point. *)
Fixpoint names (x : ctx) (e : sx) (j : nat) : option (cexpr * nat) :=
  match e with
  | XAtom (AId n) =>                                                                         (* 253-275 *)
      match find_ent x n with
      | Some (EVar v t _) => Some (CVar v t, j)
      | Some (EConst v) => Some (CNum (TInt false) v, j)
      | _ => None
      end
  | XAtom (ANum b) => let* (v, t) := LitModel.convert_pp_int b (List.length b) in Some (CNum (ity_ty t) (num_val t v), j)   (* 283-296 *)
  | XAtom (AStr s) => Some (CVar (VGlobal (x_anon x j)) (TArr (TChar false) (Z.of_nat (List.length s) + 1)), S j)        (* 277-281 *)
  | XAtom (ASizeT t) => let* t := x_type x t in Some (ulong (size_of t), j)                  (* 166-185 *)
  | XAtom (AAlignT t) => let* t := x_type x t in Some (ulong (align_of t), j)                (* 200-206 *)
  | XAtom _ => None
  | XUn u e =>
      let* (c, j) := names x e j in
      match u with
      | UPlus => Some (CPlus c, j) | UNeg => Some (CNeg c, j) | UAddr => Some (CAddr c, j) | UDeref => Some (CDeref c, j)
      | UNot => Some (CNot c, j) | UBitNot => Some (CBitNot c, j) | UInc => Some (CPreInc c, j) | UDec => Some (CPreDec c, j)
      | USizeof => let* t := node_type c in Some (ulong (size_of t), j)                      (* 187-198 *)
      | UAlignof => let* t := node_type c in Some (ulong (align_of t), j)                    (* 208-213 *)
      end
  | XPost inc e => let* (c, j) := names x e j in Some ((if inc then CPostInc c else CPostDec c), j)
  | XMem false e m =>
      let* (c, j) := names x e j in let* t := node_type c in
      let l := members x t in let* p := struct_ref m (S (depths l)) l in Some (dots c p, j)
  | XMem true e m =>
      let* (c, j) := names x e j in let* (n, _) := elab c 0 in let* d := mk_deref n in
      let l := members x (ntype d) in let* p := struct_ref m (S (depths l)) l in
      match p with i :: p => Some (dots (CArrow c i) p, j) | [] => None end
  | XIndex a i => let* (ca, j) := names x a j in let* (ci, j) := names x i j in Some (CIndex ca ci, j)
  | XCall f args =>
      let* (cf, j) := names x f j in let* (ps, va) := signature x f in
      let* (cs, j) := (fix go (l : list sx) (j : nat) : option (list cexpr * nat) :=
                         match l with [] => Some ([], j) | a :: l => let* (c, j) := names x a j in let* (cs, j) := go l j in Some (c :: cs, j) end) args j in
      Some (CCall cf ps va cs, j)
  | XBin o a b =>
      let* (ca, j) := names x a j in let* (cb, j) := names x b j in
      Some (match o with XO o => CBin o ca cb | XAnd => CAnd ca cb | XOr => COr ca cb end, j)
  | XCond c a b => let* (cc, j) := names x c j in let* (ca, j) := names x a j in let* (cb, j) := names x b j in Some (CCond cc ca cb, j)
  | XElvis a b => let* (ca, j) := names x a j in let* (cb, j) := names x b j in Some (CElvis ca cb, j)
  | XCast t e => let* t := x_type x t in let* (c, j) := names x e j in Some (CCast t c, j)
  | XAssign o l r =>
      let* (cl, j) := names x l j in let* (cr, j) := names x r j in
      Some (match o with None => CAssign cl cr | Some o => COpAssign o cl cr end, j)
  | XComma a b => let* (ca, j) := names x a j in let* (cb, j) := names x b j in Some (CComma ca cb, j)
  | XGeneric _ _ | XCas _ _ _ | XExch _ _ => None
  end.
(** From the tokens of an expression to its tree: expr() (parser.c:1058-1071) with all it
    calls, add_type included. [k]: local variables before *)
Definition front (x : ctx) (ts : list tok) (j k : nat) : option (node * nat * nat * list tok) :=
  match parse_expr ts with
  | Ok e rest => let* (c, j) := names x e j in let* (n, k) := elab c k in Some (n, j, k, rest)
  | _ => None
  end.
