(** The meaning of a typed expression tree, with the rules of C11: which value it
    has and what it leaves in memory. None: undefined behaviour, a constraint
    violation, or a form outside this specification (floating point). *)
From Verif Require Import Base TypeModel IntArith NodeModel ValSpec.

(** Where the variables are, which addresses the program may use, and what the
    functions it calls do: given the address of the function, the types and the values
    of the arguments and the type of the result. *)
Record env := Env {
  e_addr : var -> Z;
  e_valid : Z -> bool;
  e_call : Z -> list ty -> ty -> list Z -> mem -> option (Z * mem);
}.

(** A value of type [f] may be converted to [t]. *)
Definition convertible (f t : ty) : bool :=
  match t with
  | TVoid => true
  | TStruct _ _ _ | TUnion _ _ _ => is_struct_union f
  | _ => match f with
         | TArr _ _ | TFunc _ => true
         | _ => match int_repr f with Some _ => true | None => false end
         end
  end.
Definition is_scalar (t : ty) : bool := match int_repr t with Some _ => true | None => match t with TArr _ _ | TFunc _ => true | _ => false end end.

(** [ev E true n]: [n] as an lvalue, its address. [ev E false n]: its value.
    The operands of an operator are unsequenced in C11; here the right one comes
    first, and in an assignment the address of the left side, then the right
    side. Arguments are evaluated from the last to the first, then the function. *)
Fixpoint ev (E : env) (lv : bool) (n : node) (m : mem) {struct n} : option (Z * mem) :=
  let load t m a := let* v := load_val (e_valid E) t m a in Some (v, m) in
  match n with
  | NNull => if lv then None else Some (0, m)
  | NNum t v => if lv then None else if val_of t v then Some (v, m) else None
  | NVar x t => if lv then Some (e_addr E x, m) else load t m (e_addr E x)
  | NMember l i =>
      let* (a, m) := ev E true l m in
      let a := (a + m_off i) mod 2 ^ 64 in
      if lv then Some (a, m)
      else match m_bf i with
           | None => load (m_ty i) m a
           | Some (o, w) => let* v := load_bf (e_valid E) (m_ty i) o w m a in Some (v, m)
           end
  | NDeref l =>
      let* (a, m) := ev E false l m in
      if lv then Some (a, m) else load (ntype n) m a
  | NAddr l => if lv then None else ev E true l m
  | NAssign l r =>
      if lv && negb (is_struct_union (ntype l)) then None else
      let* (a, m) := ev E true l m in
      let* (v, m) := ev E false r m in
      match l with
      | NMember _ (MInfo t _ (Some (o, w))) =>
          let* m := store_bf (e_valid E) t o w m a v in
          Some (if bf_signed t then sx w v else v mod 2 ^ w, m)
      | _ =>
          let* m := store_val (e_valid E) (ntype l) m a v in Some (v, m)
      end
  | NComma l r => let* (_, m) := ev E false l m in ev E lv r m
  | NCast t l =>
      if lv || negb (convertible (ntype l) t) then None else
      let* (v, m) := ev E false l m in
      let* v := conv t v in Some (v, m)
  | NCond c a b =>
      if lv && negb (is_struct_union (ntype n)) || negb (is_scalar (ntype c)) then None else
      let* (x, m) := ev E false c m in
      if truth x then ev E false a m else ev E false b m
  | NNeg t l =>
      if lv then None else
      let* (x, m) := ev E false l m in
      let* v := neg_val t x in Some (v, m)
  | NNot l =>
      if lv || negb (is_scalar (ntype l)) then None else
      let* (x, m) := ev E false l m in Some (b2z (negb (truth x)), m)
  | NBitNot l =>
      if lv then None else
      let* (x, m) := ev E false l m in
      let* v := bitnot_val (ntype l) x in Some (v, m)
  | NLogAnd l r =>
      if lv || negb (is_scalar (ntype l) && is_scalar (ntype r)) then None else
      let* (x, m) := ev E false l m in
      if truth x then let* (y, m) := ev E false r m in Some (b2z (truth y), m) else Some (0, m)
  | NLogOr l r =>
      if lv || negb (is_scalar (ntype l) && is_scalar (ntype r)) then None else
      let* (x, m) := ev E false l m in
      if truth x then Some (1, m) else let* (y, m) := ev E false r m in Some (b2z (truth y), m)
  | NBin o t l r =>
      if lv then None else
      let* (y, m) := ev E false r m in
      let* (x, m) := ev E false l m in
      let* v := bin_val o (match o with Eq | Ne | Lt | Le => ntype l | _ => t end) x y in Some (v, m)
  | NMemzero x t =>
      if lv then None else
      if accessible (e_valid E) (e_addr E x) (size_of t) then Some (0, le_store m (e_addr E x) (size_of t) 0) else None
  | NCall f args t =>
      if lv then None else
      let* (vs, m) := (fix evl (l : list node) (m : mem) : option (list Z * mem) :=
                         match l with
                         | [] => Some ([], m)
                         | a :: r => let* (vs, m) := evl r m in let* (v, m) := ev E false a m in Some (v :: vs, m)
                         end) args m in
      let* (fa, m) := ev E false f m in
      let* (v, m) := e_call E fa (map ntype args) t vs m in
      match t with
      | TVoid => Some (0, m)
      | _ => if val_of t v then Some (v, m) else None
      end
  end.

(** Typed as add_type types it: the operands of an arithmetic operator or of a
    comparison have one type, which is the type of the result for the former; the
    result of a shift has the type of its left operand; the right side of an
    assignment has the type of the left side. A bit-field lies inside its unit. *)
Definition same_repr (a b : ty) : bool :=
  match int_repr a, int_repr b with
  | Some (s, w), Some (s', w') => Bool.eqb s s' && (w =? w')
  | _, _ => false
  end.
Definition member_ok (i : minfo) : bool :=
  match m_bf i with
  | None => true
  | Some (o, w) => match int_repr (m_ty i) with Some (_, n) => (0 <? w) && (0 <=? o) && (o + w <=? 8 * size_of (m_ty i)) && (w <=? n) | None => false end
  end.
Definition is_bitfield (n : node) : bool := match n with NMember _ i => match m_bf i with Some _ => true | None => false end | _ => false end.
Fixpoint well_typed (n : node) : bool :=
  match n with
  | NNull | NNum _ _ | NVar _ _ | NMemzero _ _ => true
  | NMember l i => member_ok i && well_typed l
  | NDeref l => has_base (ntype l) && well_typed l
  | NAddr l | NCast _ l | NNot l | NBitNot l => well_typed l
  | NNeg t l => same_repr t (ntype l) && well_typed l
  | NAssign l r => well_typed l && well_typed r && (is_struct_union (ntype l) && is_struct_union (ntype r) || same_repr (ntype l) (ntype r))
  | NComma l r | NLogAnd l r | NLogOr l r => well_typed l && well_typed r
  | NCond c a b =>
      well_typed c && well_typed a && well_typed b &&
      match ntype n with
      | TVoid => true
      | t => same_repr t (ntype a) && same_repr t (ntype b) || (is_struct_union t && is_struct_union (ntype a) && is_struct_union (ntype b))
      end
  | NBin o t l r =>
      well_typed l && well_typed r &&
      match o with
      | Eq | Ne | Lt | Le => same_repr (ntype l) (ntype r) && same_repr t (TInt false)
      | Shl | Shr => same_repr t (ntype l) && match int_repr (ntype r) with Some _ => true | None => false end
      | Sub => same_repr t (ntype l) && same_repr t (ntype r) || (same_repr t (TLong false) && has_base (ntype l) && has_base (ntype r))
      | _ => same_repr t (ntype l) && same_repr t (ntype r)
      end
  | NCall f args t => well_typed f && forallb well_typed args && (match t with TVoid => true | _ => match int_repr t with Some _ => true | None => false end end)
  end.
(** Addresses are 64 bit numbers. *)
Definition env_ok (E : env) : Prop := forall x, 0 <= e_addr E x < 2 ^ 64.
