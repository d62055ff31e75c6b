(** Model of the expression tree: struct Node (/repo/toycc.h), add_type
    (/repo/type.c:341-498) and the functions of /repo/parser/parser.c that build
    expressions. Trees are built fully typed: where the C code leaves `ty` unset
    and calls add_type later, the model sets it at once; add_type is idempotent
    (type.c:343) and every use is preceded by a call of it. *)
From Verif Require Import Base TypeModel.

(** Binary node kinds, toycc.h ND_ADD .. ND_SHR *)
Inductive bop := Add | Sub | Mul | Div | Mod | And | Or | Xor | Eq | Ne | Lt | Le | Shl | Shr.

(** struct Member, as used by an ND_MEMBER node: type, offset and, for a
    bit-field, bit offset and width *)
Record minfo := MInfo { m_ty : ty; m_off : Z; m_bf : option (Z * Z) }.

(** node->var: a local by its number, a global or function by its name *)
Inductive var := VLocal (n : nat) | VGlobal (s : bytes).

(** struct Node, expression kinds. Not modelled: ND_STMT_EXPR, ND_LABEL_VAL,
    ND_VLA_PTR, ND_CAS, ND_EXCH and floating point ND_NUM. *)
Inductive node :=
  | NNull
  | NNum (t : ty) (v : Z)
  | NVar (x : var) (t : ty)
  | NMember (l : node) (m : minfo)
  | NDeref (l : node)
  | NAddr (l : node)
  | NAssign (l r : node)
  | NComma (l r : node)
  | NCast (t : ty) (l : node)
  | NCond (c a b : node)
  | NNeg (t : ty) (l : node)
  | NNot (l : node)
  | NBitNot (l : node)
  | NLogAnd (l r : node)
  | NLogOr (l r : node)
  | NBin (o : bop) (t : ty) (l r : node)
  | NMemzero (x : var) (t : ty)
  | NCall (f : node) (args : list node) (ret : ty).

(** ** add_type *)
(** node->ty, as add_type sets it (type.c:360-497) *)
Fixpoint ntype (n : node) : ty :=
  match n with
  | NNull | NMemzero _ _ => TVoid
  | NNum t _ | NVar _ t | NCast t _ | NNeg t _ | NBin _ t _ _ | NCall _ _ t => t
  | NMember _ m => m_ty m
  | NDeref l => match base_of (ntype l) with Some b => b | None => TVoid end
  | NAddr l => match ntype l with TArr b _ => TPtr b | t => TPtr t end
  | NAssign l _ => ntype l
  | NComma _ r => ntype r
  | NCond _ a b => match ntype a, ntype b with TVoid, _ | _, TVoid => TVoid | t, _ => t end
  | NNot _ | NLogAnd _ _ | NLogOr _ _ => TInt false
  | NBitNot l => ntype l
  end.

Definition is_struct_union (t : ty) : bool := match t with TStruct _ _ _ | TUnion _ _ _ => true | _ => false end.
Definition has_base (t : ty) : bool := match base_of t with Some _ => true | None => false end.

(** type.c:363-373 with usual_arith_conv 332-338: the arithmetic operators *)
Definition mk_arith (o : bop) (l r : node) : node :=
  let t := get_common_type (ntype l) (ntype r) in NBin o t (NCast t l) (NCast t r).
(** type.c:391-397 the comparisons *)
Definition mk_compare (o : bop) (l r : node) : node :=
  let t := get_common_type (ntype l) (ntype r) in NBin o (TInt false) (NCast t l) (NCast t r).
(** type.c:409-413 the shifts: no conversion of the operands *)
Definition mk_shift (o : bop) (l r : node) : node := NBin o (ntype l) l r.
(** new_binary followed by add_type *)
Definition mk_bin (o : bop) (l r : node) : node :=
  match o with
  | Eq | Ne | Lt | Le => mk_compare o l r
  | Shl | Shr => mk_shift o l r
  | _ => mk_arith o l r
  end.
(** type.c:375-380 *)
Definition mk_neg (l : node) : node := let t := get_common_type (TInt false) (ntype l) in NNeg t (NCast t l).
(** type.c:381-388; None is the error "not an lvalue" *)
Definition mk_assign (l r : node) : option node :=
  match ntype l with
  | TArr _ _ => None
  | TStruct _ _ _ => Some (NAssign l r)
  | t => Some (NAssign l (NCast t r))
  end.
(** type.c:420-427 *)
Definition mk_cond (c a b : node) : node :=
  match ntype a, ntype b with
  | TVoid, _ | _, TVoid => NCond c a b
  | ta, tb => let t := get_common_type ta tb in NCond c (NCast t a) (NCast t b)
  end.
(** type.c:447-454; None: the two errors *)
Definition mk_deref (l : node) : option node :=
  match base_of (ntype l) with
  | None | Some TVoid => None
  | Some _ => Some (NDeref l)
  end.

(** ** Expressions as written *)
(** The parse tree the grammar functions of parser.c walk over. > and >= are
    kept apart from < and <= here; parentheses are gone. *)
Inductive sop := SAdd | SSub | SMul | SDiv | SMod | SAnd | SOr | SXor | SEq | SNe | SLt | SLe | SGt | SGe | SShl | SShr.
Inductive cexpr :=
  | CNum (t : ty) (v : Z)
  | CVar (x : var) (t : ty)
  | CPlus (e : cexpr) | CNeg (e : cexpr) | CNot (e : cexpr) | CBitNot (e : cexpr)
  | CBin (o : sop) (a b : cexpr)
  | CAnd (a b : cexpr) | COr (a b : cexpr)
  | CCond (c a b : cexpr)
  | CElvis (a b : cexpr)                     (* a ?: b *)
  | CComma (a b : cexpr)
  | CCast (t : ty) (e : cexpr)
  | CAssign (l r : cexpr)
  | COpAssign (o : sop) (l r : cexpr)
  | CPreInc (l : cexpr) | CPreDec (l : cexpr)
  | CPostInc (l : cexpr) | CPostDec (l : cexpr)
  | CDeref (e : cexpr) | CAddr (l : cexpr)
  | CIndex (a i : cexpr)
  | CDot (l : cexpr) (m : minfo) | CArrow (e : cexpr) (m : minfo)
  (* f(args): the types of the parameters of f are not part of [ty] and given here; va: variadic *)
  | CCall (f : cexpr) (ps : list ty) (va : bool) (args : list cexpr).

(** ** parser.c *)
(** parser.c:662-693 new_add. None: the error "invalid operands", or (a struct
    and a number) the null dereference of lhs->ty->base. Pointers to arrays of
    variable length are not modelled. *)
Definition new_add (l r : node) : option node :=
  if is_numeric (ntype l) && is_numeric (ntype r) then Some (mk_arith Add l r)
  else if has_base (ntype l) && has_base (ntype r) then None
  else
    let (l, r) := if negb (has_base (ntype l)) && has_base (ntype r) then (r, l) else (l, r) in
    match base_of (ntype l) with
    | None | Some (TVla _) => None
    | Some b => Some (mk_arith Add l (mk_arith Mul r (NNum (TLong false) (size_of b))))
    end.

(** parser.c:695-730 new_sub: the first test looks at lhs twice *)
Definition new_sub (l r : node) : option node :=
  if is_numeric (ntype l) && is_numeric (ntype l) then Some (mk_arith Sub l r)
  else
    match base_of (ntype l), base_of (ntype r) with
    | Some b, Some _ => Some (mk_arith Div (NBin Sub (TLong false) l r) (NNum (TInt false) (size_of b)))
    | None, _ | Some (TVla _), None => None
    | Some b, None =>
        if is_integer (ntype r) then Some (mk_arith Sub l (mk_arith Mul r (NNum (TLong false) (size_of b)))) else None
    end.

(** One binary operator, parser.c:620-960; a > b is b < a *)
Definition new_op (o : sop) (l r : node) : option node :=
  match o with
  | SAdd => new_add l r
  | SSub => new_sub l r
  | SMul => Some (mk_bin Mul l r) | SDiv => Some (mk_bin Div l r) | SMod => Some (mk_bin Mod l r)
  | SAnd => Some (mk_bin And l r) | SOr => Some (mk_bin Or l r) | SXor => Some (mk_bin Xor l r)
  | SEq => Some (mk_bin Eq l r) | SNe => Some (mk_bin Ne l r)
  | SLt => Some (mk_bin Lt l r) | SLe => Some (mk_bin Le l r)
  | SGt => Some (mk_bin Lt r l) | SGe => Some (mk_bin Le r l)
  | SShl => Some (mk_bin Shl l r) | SShr => Some (mk_bin Shr l r)
  end.

(** What new_binary stored before add_type wrapped the operands in casts: the C
    code runs to_assign before add_type on the new node, so its operands carry no
    casts yet. *)
Definition raw_parts (o : sop) (l r : node) : option (bop * node * node) :=
  match o with
  | SAdd =>
      if is_numeric (ntype l) && is_numeric (ntype r) then Some (Add, l, r)
      else if has_base (ntype l) && has_base (ntype r) then None
      else
        let (l, r) := if negb (has_base (ntype l)) && has_base (ntype r) then (r, l) else (l, r) in
        match base_of (ntype l) with
        | None | Some (TVla _) => None
        | Some b => Some (Add, l, mk_arith Mul r (NNum (TLong false) (size_of b)))
        end
  | SSub =>
      if is_numeric (ntype l) && is_numeric (ntype l) then Some (Sub, l, r)
      else
        match base_of (ntype l), base_of (ntype r) with
        | Some b, Some _ => Some (Div, NBin Sub (TLong false) l r, NNum (TInt false) (size_of b))
        | None, _ | Some (TVla _), None => None
        | Some b, None =>
            if is_integer (ntype r) then Some (Sub, l, mk_arith Mul r (NNum (TLong false) (size_of b))) else None
        end
  | SMul => Some (Mul, l, r) | SDiv => Some (Div, l, r) | SMod => Some (Mod, l, r)
  | SAnd => Some (And, l, r) | SOr => Some (Or, l, r) | SXor => Some (Xor, l, r)
  | SShl => Some (Shl, l, r) | SShr => Some (Shr, l, r)
  | SEq | SNe | SLt | SLe | SGt | SGe => None       (* there is no such operator *)
  end.

(** parser.c:369-500 to_assign for non-atomic types. [k] is the number of the
    next local variable (new_lvar), for tmp. *)
Definition to_assign (parts : bop * node * node) (k : nat) : option node :=
  let '(o, l, r) := parts in
  match l with
  | NMember a m =>
      let tmp := NVar (VLocal k) (TPtr (ntype a)) in
      match mk_assign tmp (NAddr a), mk_deref tmp with
      | Some e1, Some d =>
          match mk_assign (NMember d m) (mk_bin o (NMember d m) r) with
          | Some e4 => Some (NComma e1 e4)
          | None => None
          end
      | _, _ => None
      end
  | _ =>
      let tmp := NVar (VLocal k) (TPtr (ntype l)) in
      match mk_assign tmp (NAddr l), mk_deref tmp with
      | Some e1, Some d =>
          match mk_assign d (mk_bin o d r) with
          | Some e2 => Some (NComma e1 e2)
          | None => None
          end
      | _, _ => None
      end
  end.

(** parser.c:503-512 new_inc_dec *)
Definition new_inc_dec (n : node) (addend : Z) (k : nat) : option node :=
  match raw_parts SAdd n (NNum (TInt false) addend) with
  | Some p =>
      match to_assign p k with
      | Some a =>
          match new_add a (NNum (TInt false) (- addend)) with
          | Some s => Some (NCast (ntype n) s)
          | None => None
          end
      | None => None
      end
  | None => None
  end.

Notation "'let*' x := e 'in' k" := (match e with Some x => k | None => None end) (at level 200, x pattern, e at level 100, k at level 200).

(** parser.c:28-32: a function or a pointer to one, and its result *)
Definition callee (t : ty) : option ty := match t with TFunc r | TPtr (TFunc r) => Some r | _ => None end.
(** The tree built for an expression; [k] numbers the locals created on the way.
    The order in which operands are numbered is that of parsing, left to right. *)
Fixpoint elab (e : cexpr) (k : nat) : option (node * nat) :=
  match e with
  | CNum t v => Some (NNum t v, k)                               (* parser.c:277-299 *)
  | CVar x t => Some (NVar x t, k)
  | CPlus e => elab e k                                          (* parser.c:760-762 *)
  | CNeg e => let* (n, k) := elab e k in Some (mk_neg n, k)
  | CNot e => let* (n, k) := elab e k in Some (NNot n, k)
  | CBitNot e => let* (n, k) := elab e k in Some (NBitNot n, k)
  | CBin o a b =>
      let* (l, k) := elab a k in let* (r, k) := elab b k in
      let* n := new_op o l r in Some (n, k)
  | CAnd a b => let* (l, k) := elab a k in let* (r, k) := elab b k in Some (NLogAnd l r, k)
  | COr a b => let* (l, k) := elab a k in let* (r, k) := elab b k in Some (NLogOr l r, k)
  | CCond c a b =>
      let* (nc, k) := elab c k in let* (na, k) := elab a k in let* (nb, k) := elab b k in
      Some (mk_cond nc na nb, k)
  | CElvis a b =>                                                (* parser.c:980-1000 *)
      let* (na, k) := elab a k in
      let tmp := NVar (VLocal k) (ntype na) in
      let* e1 := mk_assign tmp na in
      let* (nb, k) := elab b (S k) in
      Some (NComma e1 (mk_cond tmp tmp nb), k)
  | CComma a b => let* (l, k) := elab a k in let* (r, k) := elab b k in Some (NComma l r, k)
  | CCast t e => let* (n, k) := elab e k in Some (NCast t n, k)
  | CAssign l r =>
      let* (nl, k) := elab l k in let* (nr, k) := elab r k in
      let* n := mk_assign nl nr in Some (n, k)
  | COpAssign o l r =>
      let* (nl, k) := elab l k in let* (nr, k) := elab r k in
      let* p := raw_parts o nl nr in
      let* n := to_assign p k in Some (n, S k)
  | CPreInc l =>
      let* (nl, k) := elab l k in
      let* p := raw_parts SAdd nl (NNum (TInt false) 1) in
      let* n := to_assign p k in Some (n, S k)
  | CPreDec l =>
      let* (nl, k) := elab l k in
      let* p := raw_parts SSub nl (NNum (TInt false) 1) in
      let* n := to_assign p k in Some (n, S k)
  | CPostInc l => let* (nl, k) := elab l k in let* n := new_inc_dec nl 1 k in Some (n, S k)
  | CPostDec l => let* (nl, k) := elab l k in let* n := new_inc_dec nl (-1) k in Some (n, S k)
  | CDeref e =>
      let* (n, k) := elab e k in
      match ntype n with
      | TFunc _ => Some (n, k)                                   (* parser.c:779-786 *)
      | _ => let* d := mk_deref n in Some (d, k)
      end
  | CAddr l =>
      let* (n, k) := elab l k in
      match n with
      | NMember _ (MInfo _ _ (Some _)) => None                   (* parser.c:771-772 *)
      | _ => Some (NAddr n, k)
      end
  | CIndex a i =>
      let* (l, k) := elab a k in let* (r, k) := elab i k in
      let* s := new_add l r in let* d := mk_deref s in Some (d, k)
  | CDot l m => let* (n, k) := elab l k in if is_struct_union (ntype n) then Some (NMember n m, k) else None   (* parser.c:338-361 *)
  | CArrow e m =>
      let* (n, k) := elab e k in let* d := mk_deref n in
      if is_struct_union (ntype d) then Some (NMember d m, k) else None
  | CCall f ps va args =>                                        (* parser.c:24-80; results of struct type (ret_buffer) are not modelled *)
      let* (nf, k) := elab f k in
      let* r := callee (ntype nf) in
      let* (ns, k) := (fix go (l : list cexpr) (ps : list ty) (k : nat) {struct l} : option (list node * nat) :=
                         match l with
                         | [] => match ps with [] => Some ([], k) | _ => None end               (* too few arguments *)
                         | a :: l =>
                             let* (n, k) := elab a k in
                             match ps with
                             | p :: ps => let* (ns, k) := go l ps k in Some ((if is_struct_union p then n else NCast p n) :: ns, k)
                             | [] => if va then let* (ns, k) := go l [] k in Some (n :: ns, k) else None  (* too many arguments *)
                             end
                         end) args ps k in
      if is_struct_union r then None else Some (NCall nf ns r, k)
  end.
