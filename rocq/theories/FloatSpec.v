(** The meaning of expressions with float and double (C11, annex F: the types are the IEEE
    754 binary32 and binary64, conversions and operators round to nearest, ties to even),
    and what it means for the code of such an expression to be right. A value of one of
    these types is the number its bits make. *)
From Verif Require Import Base TypeModel IntArith NodeModel ValSpec NodeSpec FpSpec RvSpec GenSpec.

(** The format of a type; long double is not covered. *)
Definition fmt_of (t : ty) : option fmt := match t with TFloat => Some B32 | TDouble => Some B64 | _ => None end.

(** Nothing inside has a floating type: [NodeSpec.ev] says what it means. *)
Fixpoint int_only (n : node) : bool :=
  negb (is_float (ntype n)) &&
  match n with
  | NNull | NNum _ _ | NVar _ _ | NMemzero _ _ => true
  | NMember l _ | NDeref l | NAddr l | NCast _ l | NNeg _ l | NNot l | NBitNot l => int_only l
  | NAssign l r | NComma l r | NLogAnd l r | NLogOr l r | NBin _ _ l r => int_only l && int_only r
  | NCond c a b => int_only c && int_only a && int_only b
  | NCall f args _ => int_only f && forallb int_only args
  end.

(** ** Values *)
(** Conversion from [s] to [t]: C11 6.3.1.2, 6.3.1.4, 6.3.1.5. What has no value that fits
    is undefined; there is no conversion between pointers and floating types. *)
Definition fcast (s t : ty) (v : Z) : option Z :=
  match fmt_of s, fmt_of t with
  | Some f, Some g => Some (if fmt_eqb f g then v else fconv f g v)
  | Some f, None =>
      match t with
      | TVoid => Some 0
      | TBool => Some (b2z (negb (fcmp FEq f v 0)))
      | TPtr _ => None
      | _ => let* (s, n) := int_repr t in
             let* z := ftrunc f v in if in_range s n z then Some z else None
      end
  | None, Some g => match s with TPtr _ => None | _ => let* _ := int_repr s in Some (fof g v) end
  | None, None => if convertible s t then conv t v else None
  end.
(** Different from zero (6.5.3.3, 6.5.13-15) *)
Definition ftruth (t : ty) (v : Z) : option bool :=
  match fmt_of t with
  | Some f => Some (negb (fcmp FEq f v 0))
  | None => if is_scalar t then Some (truth v) else None
  end.
Definition fbin_val (o : bop) (f : fmt) (x y : Z) : option Z :=
  match o with
  | Add => Some (fop FAdd f x y) | Sub => Some (fop FSub f x y) | Mul => Some (fop FMul f x y) | Div => Some (fop FDiv f x y)
  | Eq => Some (b2z (fcmp FEq f x y)) | Ne => Some (b2z (negb (fcmp FEq f x y)))
  | Lt => Some (b2z (fcmp FLt f x y)) | Le => Some (b2z (fcmp FLe f x y))
  | _ => None
  end.
Section Mem.
Variable valid : Z -> bool.
Definition fload (t : ty) (m : mem) (a : Z) : option Z :=
  match fmt_of t with
  | Some f => if accessible valid a (size_of t) then Some (le_load m a (Z.to_nat (size_of t))) else None
  | None => load_val valid t m a
  end.
Definition fstore (t : ty) (m : mem) (a v : Z) : option mem :=
  match fmt_of t with
  | Some f => if accessible valid a (size_of t) then Some (le_store m a (size_of t) v) else None
  | None => store_val valid t m a v
  end.
End Mem.

(** As [NodeSpec.ev], with the same order of evaluation. Not covered where something inside
    is floating: calls, bit-fields, the assignment of structures. *)
Fixpoint fev (E : env) (lv : bool) (n : node) (m : mem) {struct n} : option (Z * mem) :=
  if int_only n then ev E lv n m else
  let load t m a := let* v := fload (e_valid E) t m a in Some (v, m) in
  match n with
  | NNum t v => if lv then None else let* f := fmt_of t in if fval f v then Some (v, m) else None
  | NVar x t => if lv then Some (e_addr E x, m) else load t m (e_addr E x)
  | NMember l i =>
      let* (a, m) := fev E true l m in
      let a := (a + m_off i) mod 2 ^ 64 in
      if lv then Some (a, m) else match m_bf i with None => load (m_ty i) m a | Some _ => None end
  | NDeref l =>
      let* (a, m) := fev E false l m in
      if lv then Some (a, m) else load (ntype n) m a
  | NAddr l => if lv then None else fev E true l m
  | NAssign l r =>
      if lv || is_bitfield l || is_struct_union (ntype l) then None else
      let* (a, m) := fev E true l m in
      let* (v, m) := fev E false r m in
      let* m := fstore (e_valid E) (ntype l) m a v in Some (v, m)
  | NComma l r => let* (_, m) := fev E false l m in fev E lv r m
  | NCast t l =>
      if lv then None else
      let* (v, m) := fev E false l m in
      let* v := fcast (ntype l) t v in Some (v, m)
  | NCond c a b =>
      if lv then None else
      let* (x, m) := fev E false c m in
      let* x := ftruth (ntype c) x in
      if x then fev E false a m else fev E false b m
  | NNeg t l =>
      if lv then None else
      let* (x, m) := fev E false l m in
      match fmt_of t with Some f => Some (fneg f x, m) | None => let* v := neg_val t x in Some (v, m) end
  | NNot l =>
      if lv then None else
      let* (x, m) := fev E false l m in
      let* x := ftruth (ntype l) x in Some (b2z (negb x), m)
  | NBitNot l =>
      if lv then None else
      let* (x, m) := fev E false l m in
      let* v := bitnot_val (ntype l) x in Some (v, m)
  | NLogAnd l r =>
      if lv then None else
      let* (x, m) := fev E false l m in
      let* x := ftruth (ntype l) x in
      if x then let* (y, m) := fev E false r m in let* y := ftruth (ntype r) y in Some (b2z y, m) else Some (0, m)
  | NLogOr l r =>
      if lv then None else
      let* (x, m) := fev E false l m in
      let* x := ftruth (ntype l) x in
      if x then Some (1, m) else let* (y, m) := fev E false r m in let* y := ftruth (ntype r) y in Some (b2z y, m)
  | NBin o t l r =>
      if lv then None else
      let* (y, m) := fev E false r m in
      let* (x, m) := fev E false l m in
      let* v := match fmt_of (ntype l) with
                | Some f => fbin_val o f x y
                | None => bin_val o (match o with Eq | Ne | Lt | Le => ntype l | _ => t end) x y
                end in
      Some (v, m)
  | NNull | NMemzero _ _ | NCall _ _ _ => None
  end.

(** ** Typed as add_type types it *)
Definition fsame (a b : ty) : bool :=
  match fmt_of a, fmt_of b with Some f, Some g => fmt_eqb f g | None, None => same_repr a b | _, _ => false end.
Fixpoint fwell_typed (n : node) : bool :=
  if int_only n then well_typed n else
  match n with
  | NNull | NNum _ _ | NVar _ _ | NMemzero _ _ => true
  | NMember l i => member_ok i && fwell_typed l
  | NDeref l => has_base (ntype l) && fwell_typed l
  | NAddr l | NCast _ l | NNot l | NBitNot l => fwell_typed l
  | NNeg t l => fsame t (ntype l) && fwell_typed l
  | NAssign l r => fwell_typed l && fwell_typed r && fsame (ntype l) (ntype r)
  | NComma l r | NLogAnd l r | NLogOr l r => fwell_typed l && fwell_typed r
  | NCond c a b =>
      fwell_typed c && fwell_typed a && fwell_typed b &&
      match ntype n with TVoid => true | t => fsame t (ntype a) && fsame t (ntype b) end
  | NBin o t l r =>
      fwell_typed l && fwell_typed r &&
      match o with
      | Eq | Ne | Lt | Le => fsame (ntype l) (ntype r) && same_repr t (TInt false)
      | Shl | Shr => same_repr t (ntype l) && match int_repr (ntype r) with Some _ => true | None => false end
      | Sub => fsame t (ntype l) && fsame t (ntype r) || (same_repr t (TLong false) && has_base (ntype l) && has_base (ntype r))
      | _ => fsame t (ntype l) && fsame t (ntype r)
      end
  | NCall _ _ _ => false
  end.

(** ** Which expressions the code is right for *)
(** As [GenSpec.qual]; the result in fa0 is right or not covered. None: what the code does
    is wrong (see the refutations in FloatProps) or outside the model. *)
Definition fcast_qual (s t : ty) (a : Z) : option Z :=
  match fmt_of s, fmt_of t with
  | Some _, Some _ => Some 64
  | Some _, None =>
      match t with
      | TVoid => Some 0
      | TInt true => Some 32
      | TChar _ | TShort _ | TInt false | TLong _ => Some 64
      | _ => None
      end
  | None, Some _ =>
      match s with
      | TChar _ | TShort _ | TInt _ => if 32 <=? a then Some 64 else None
      | TLong _ | TBool => if a =? 64 then Some 64 else None
      | _ => None
      end
  | None, None => Some (cast_qual s t a)
  end.
Definition floadable (t : ty) : bool := match fmt_of t with Some _ => true | None => loadable t end.
Definition same_class (a b : ty) : bool :=
  match fmt_of a, fmt_of b with Some f, Some g => fmt_eqb f g | None, None => true | _, _ => false end.
Fixpoint fqual (lv : bool) (n : node) : option Z :=
  if int_only n then qual lv n else
  match n with
  | NNum t _ => if lv then None else let* _ := fmt_of t in Some 64
  | NVar _ t => if lv then Some 64 else let* _ := fmt_of t in Some 64
  | NMember l i =>
      let* a := fqual true l in
      if negb (a =? 64) then None
      else if lv then Some 64
      else match m_bf i with None => if floadable (m_ty i) then Some 64 else None | Some _ => None end
  | NDeref l =>
      let* a := fqual false l in
      if (a =? 64) && (lv || floadable (ntype n)) then Some 64 else None
  | NAddr l => if lv then None else fqual true l
  | NAssign l r =>
      if lv then None else
      let* a := fqual true l in let* b := fqual false r in
      if negb (a =? 64) then None
      else match fmt_of (ntype l) with Some _ => Some 64 | None => if 8 * size_of (ntype l) <=? b then Some b else None end
  | NComma l r => let* _ := fqual false l in fqual lv r
  | NCast t l => if lv then None else let* a := fqual false l in fcast_qual (ntype l) t a
  | NCond c a b =>
      if lv then None else
      let* x := fqual false c in let* y := fqual false a in let* z := fqual false b in
      if x =? 64 then Some (match ntype n with TVoid => 0 | _ => Z.min y z end) else None
  | NNeg t l =>
      if lv then None else
      let* a := fqual false l in
      match fmt_of t with
      | Some _ => Some 64
      | None =>
          match int_repr t with
          | Some (s, n) =>
              if n =? 64 then Some a
              else if n =? 32 then Some (if 32 <=? a then (if s then 64 else 32) else a) else None
          | None => None
          end
      end
  | NNot l => if lv then None else let* a := fqual false l in if a =? 64 then Some 64 else None
  | NBitNot l =>
      if lv then None else
      let* a := fqual false l in
      match int_repr (ntype l) with
      | Some (true, _) => Some a
      | Some (false, n) => Some (Z.min a n)
      | None => None
      end
  | NLogAnd l r =>
      if lv then None else
      let* a := fqual false l in let* b := fqual false r in
      if (a =? 64) && (b =? 64) && same_class (ntype l) (ntype r) then Some 64 else None
  | NLogOr l r =>
      if lv then None else
      let* a := fqual false l in let* b := fqual false r in
      if (a =? 64) && (b =? 64) then Some 64 else None
  | NBin o t l r =>
      if lv then None else
      let* a := fqual false l in let* b := fqual false r in
      match fmt_of (ntype l) with Some _ => Some 64 | None => bin_qual o t (ntype l) a b end
  | NNull | NMemzero _ _ | NCall _ _ _ => None
  end.

(** ** Where the code leaves the value *)
Definition holds (lv : bool) (t : ty) (q v : Z) (rs : regs) : Prop :=
  match (if lv then None else fmt_of t) with
  | Some f => rs (FA 0) = box f v
  | None => rep q v (rs (A 0))
  end.
Section Sim.
Variables (E : env) (W : world) (fp room : Z).
(** As [GenSpec.computes]: what is said of the registers afterwards is [Q]. *)
Definition runs (code : list instr) (slots : Z) (m : mem) (Q : regs -> Prop) (m' : mem) : Prop :=
  forall p k s lo, code_at p k code -> linked E W fp room p -> pc s = k -> matches E fp m s ->
    free_stack E room lo s -> lo + 8 * slots <= rg s Sp ->
    exists s', star W p s s' /\ pc s' = (k + List.length code)%nat /\ Q (rg s') /\ matches E fp m' s' /\ above_same E s s'.
End Sim.
