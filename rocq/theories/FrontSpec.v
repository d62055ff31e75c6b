(** What the names, numbers, strings and members of an expression mean in C. *)
From Verif Require Import Base TypeModel IntArith NodeModel ValSpec ElabSpec ParseModel FrontModel.
From Verif Require ScopeModel ScopeSpec LitSpec.

(** ** Members *)
(** The members with a name, as paths: a member of an anonymous struct or union counts as
    one of the struct around it (6.7.2.1p13) *)
Fixpoint places_in (n : bytes) (x : mtree) : list (list minfo) :=
  let 'MT name m kids := x in
  match name with
  | Some s => if beq s n then [[m]] else []
  | None => if is_su (m_ty m) then map (cons m) (flat_map (places_in n) kids) else []
  end.
Definition places (n : bytes) (l : list mtree) : list (list minfo) := flat_map (places_in n) l.
(** No unnamed bit-fields *)
Fixpoint named_in (x : mtree) : bool :=
  let 'MT name m kids := x in match name with Some _ => true | None => is_su (m_ty m) && forallb named_in kids end.
Definition named (l : list mtree) : bool := forallb named_in l.
Definition offset (p : list minfo) : Z := fold_right (fun m k => m_off m + k) 0 p.

(** ** Expressions *)
Definition cint_ty (t : LitSpec.cint) : ty := match t with LitSpec.c_int => TInt false | LitSpec.c_uint => TInt true | LitSpec.c_long => TLong false | LitSpec.c_ulong => TLong true end.
(** 6.4.4.1: the value, and the first type of the list that holds it *)
Definition integer_constant (b : bytes) (t : ty) (v : Z) : Prop :=
  exists d dec suf l u ct, b = d ++ suf /\ LitSpec.int_const d dec v /\ LitSpec.suffix suf l u /\ LitSpec.first_fit (LitSpec.candidates dec l u) v = Some ct /\ t = cint_ty ct.
Definition sized (t : ty) : bool := match t with TVoid | TFunc _ | TVla _ => false | _ => true end.
(** What a name denotes after the declarations and blocks [ops] *)
Definition declared (ops : list ScopeModel.sop) (x : ctx) (n : bytes) : option ent := let* z := ScopeSpec.visible (ScopeSpec.declares_var n) 0 (rev ops) in Some (x_ent x z).
Section Means.
Variable decl : bytes -> option ent.                (* what the names denote *)
Variable x : ctx.                                   (* only for types, members and the names of strings *)
Variable number : bytes -> option (ty * Z).         (* integer constants *)
Definition tagged (t : ty) : list mtree := match t with TStruct i _ _ | TUnion i _ _ => x_mems x i | _ => [] end.
(** The parameters of a function, or of what a pointer variable points to *)
Fixpoint parameters (e : sx) : option (list ty * bool) :=
  match e with
  | XAtom (AId n) => match decl n with Some (EVar _ _ s) => s | _ => None end
  | XUn UDeref e | XUn UAddr e => parameters e
  | _ => None
  end.
(** The operand of sizeof and _Alignof: its type; here only of expressions as in C65 *)
Definition operand (c : cexpr) : option ty :=
  let* t := ctype c in if sized t && (match bits_of c with None => true | Some _ => false end) && plain c then Some t else None.
(** [j] string literals before; each is an object of its own *)
Fixpoint means (e : sx) (j : nat) : option (cexpr * nat) :=
  match e with
  | XAtom (AId n) => match decl n with Some (EVar v t _) => Some (CVar v t, j) | Some (EConst v) => Some (CNum (TInt false) v, j) | _ => None end
  | XAtom (ANum b) => let* (t, v) := number b in Some (CNum t v, j)
  | XAtom (AStr s) => Some (CVar (VGlobal (x_anon x j)) (TArr (TChar false) (Z.of_nat (List.length s) + 1)), S j)
  | XAtom (ASizeT t) => let* t := x_type x t in Some (CNum (TLong true) (size_of t), j)
  | XAtom (AAlignT t) => let* t := x_type x t in Some (CNum (TLong true) (align_of t), j)
  | XAtom _ => None
  | XUn u e =>
      let* (c, j) := means e j in
      match u with
      | UPlus => Some (CPlus c, j) | UNeg => Some (CNeg c, j) | UAddr => Some (CAddr c, j) | UDeref => Some (CDeref c, j)
      | UNot => Some (CNot c, j) | UBitNot => Some (CBitNot c, j) | UInc => Some (CPreInc c, j) | UDec => Some (CPreDec c, j)
      | USizeof => let* t := operand c in Some (CNum (TLong true) (size_of t), j)
      | UAlignof => let* t := operand c in Some (CNum (TLong true) (align_of t), j)
      end
  | XPost inc e => let* (c, j) := means e j in Some ((if inc then CPostInc c else CPostDec c), j)
  | XMem false e m =>
      let* (c, j) := means e j in let* t := ctype c in
      match places m (tagged t) with [p] => Some (fold_left CDot p c, j) | _ => None end
  | XMem true e m =>
      let* (c, j) := means e j in let* t := ctype c in let* b := pointee t in
      match places m (tagged b) with [i :: p] => Some (fold_left CDot p (CArrow c i), j) | _ => None end
  | XIndex a i => let* (ca, j) := means a j in let* (ci, j) := means i j in Some (CIndex ca ci, j)
  | XCall f args =>
      let* (cf, j) := means f j in let* (ps, va) := parameters f in
      let* (cs, j) := (fix go (l : list sx) (j : nat) : option (list cexpr * nat) :=
                         match l with [] => Some ([], j) | a :: l => let* (c, j) := means a j in let* (cs, j) := go l j in Some (c :: cs, j) end) args j in
      Some (CCall cf ps va cs, j)
  | XBin o a b =>
      let* (ca, j) := means a j in let* (cb, j) := means b j in
      Some (match o with XO o => CBin o ca cb | XAnd => CAnd ca cb | XOr => COr ca cb end, j)
  | XCond c a b => let* (cc, j) := means c j in let* (ca, j) := means a j in let* (cb, j) := means b j in Some (CCond cc ca cb, j)
  | XElvis a b => let* (ca, j) := means a j in let* (cb, j) := means b j in Some (CElvis ca cb, j)
  | XCast t e => let* t := x_type x t in let* (c, j) := means e j in Some (CCast t c, j)
  | XAssign o l r =>
      let* (cl, j) := means l j in let* (cr, j) := means r j in
      Some (match o with None => CAssign cl cr | Some o => COpAssign o cl cr end, j)
  | XComma a b => let* (ca, j) := means a j in let* (cb, j) := means b j in Some (CComma ca cb, j)
  | XGeneric _ _ | XCas _ _ _ | XExch _ _ => None
  end.
End Means.
(** The declarations before the expression, well nested; integer constants as in the standard;
    no struct has unnamed bit-fields *)
Record source (ops : list ScopeModel.sop) (x : ctx) (number : bytes -> option (ty * Z)) : Prop := {
  so_nested : ScopeSpec.nested ops 0 = true;
  so_length : Z.of_nat (List.length ops) <= 20000000;
  so_scope : ScopeModel.do_sops ops ScopeModel.chain0 = ScopeModel.SOk (x_scope x);
  so_number : forall b t v, number b = Some (t, v) -> integer_constant b t v;
  so_named : forall i, named (x_mems x i) = true }.
