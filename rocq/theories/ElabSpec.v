(** The meaning of an expression as it is written, with the rules of C11: its type, its
    value and what it leaves in memory. None: a constraint violation, undefined behaviour,
    or a form outside this specification (floating point, variable length arrays). Only the
    syntax [cexpr], the type trees and the vocabulary of ValSpec are used. *)
From Verif Require Import Base TypeModel IntArith NodeModel ValSpec.

(** ** Types *)
Definition is_arith (t : ty) : bool := match t with TPtr _ => false | _ => match int_repr t with Some _ => true | None => false end end.
(** What a pointer points to; an array is converted to a pointer (6.3.2.1p3) *)
Definition pointee (t : ty) : option ty := match t with TPtr b | TArr b _ => Some b | _ => None end.
(** Types a pointer to which can be moved; sizes fit an int, and void counts as 1 byte (GNU) *)
Definition complete (b : ty) : bool := match b with TVla _ => false | _ => (0 <? size_of b) && (size_of b <? 2 ^ 31) end.
(** Integer promotions, 6.3.1.1p2 *)
Definition promote (t : ty) : ty :=
  match int_repr t with
  | Some (_, n) => if n <? 32 then TInt false else match t with TEnum => TInt false | _ => t end
  | None => t
  end.
(** A bit-field of type unsigned int whose values all fit an int is promoted to int *)
Definition bits_of (e : cexpr) : option (Z * Z) := match e with CDot _ m | CArrow _ m => m_bf m | _ => None end.
Definition operand_type (e : cexpr) (t : ty) : ty :=
  match bits_of e with
  | Some (_, w) => if (w <? 32) && (size_of t <=? 4) then TInt false else promote t
  | None => promote t
  end.
(** Usual arithmetic conversions of promoted types, 6.3.1.8 *)
Definition usual (a b : ty) : ty :=
  if size_of a =? size_of b then (if is_unsigned a then a else b)
  else if size_of a <? size_of b then b else a.
Definition is_su (t : ty) : bool := match t with TStruct _ _ _ | TUnion _ _ _ => true | _ => false end.
Definition same_su (a b : ty) : bool :=
  match a, b with
  | TStruct i n k, TStruct i' n' k' | TUnion i n k, TUnion i' n' k' => Nat.eqb i i' && (n =? n') && (k =? k')
  | _, _ => false
  end.
Definition scalar (t : ty) : bool := match int_repr t with Some _ => true | None => false end.
(** may be used where a scalar value is needed *)
Definition valued (t : ty) : bool := match t with TArr _ _ | TFunc _ => true | _ => scalar t end.
Definition bf_fits (t : ty) (b : option (Z * Z)) : bool :=
  match b with
  | None => true
  | Some (o, w) => match int_repr t with Some (_, n) => (0 <? w) && (0 <=? o) && (o + w <=? 8 * size_of t) && (w <=? n) | None => false end
  end.
Fixpoint is_lval (e : cexpr) : bool :=
  match e with CVar _ _ | CDeref _ | CIndex _ _ | CArrow _ _ => true | CDot l _ => is_lval l | _ => false end.

(** The type of [a op b], given the types of the operands after promotion *)
Definition bin_type (o : sop) (ta tb : ty) : option ty :=
  match o with
  | SAdd =>
      if is_arith ta && is_arith tb then Some (usual ta tb)
      else match pointee ta, pointee tb with
           | Some b, None => if is_arith tb && complete b then Some (TPtr b) else None
           | None, Some b => if is_arith ta && complete b then Some (TPtr b) else None
           | _, _ => None
           end
  | SSub =>
      if is_arith ta && is_arith tb then Some (usual ta tb)
      else match pointee ta, pointee tb with
           | Some b, None => if is_arith tb && complete b then Some (TPtr b) else None
           | Some b, Some _ => if complete b then Some (TLong false) else None
           | None, _ => None
           end
  | SMul | SDiv | SMod | SAnd | SOr | SXor => if is_arith ta && is_arith tb then Some (usual ta tb) else None
  | SShl | SShr => if is_arith ta && is_arith tb then Some ta else None
  | SEq | SNe =>
      if is_arith ta && is_arith tb then Some (TInt false)
      else match pointee ta, pointee tb with
           | Some _, Some _ => Some (TInt false)
           | Some _, None => if is_arith tb then Some (TInt false) else None
           | None, Some _ => if is_arith ta then Some (TInt false) else None
           | _, _ => None
           end
  | SLt | SLe | SGt | SGe =>
      if is_arith ta && is_arith tb then Some (TInt false)
      else match pointee ta, pointee tb with Some _, Some _ => Some (TInt false) | _, _ => None end
  end.
(** The type of [c ? a : b] *)
Definition cond_type (ta tb : ty) : option ty :=
  if is_arith ta && is_arith tb then Some (usual ta tb)
  else match pointee ta, pointee tb with
       | Some b, Some _ => Some (TPtr b)
       | Some b, None => if is_arith tb then Some (TPtr b) else None
       | None, Some b => if is_arith ta then Some (TPtr b) else None
       | None, None => match ta, tb with TVoid, TVoid => Some TVoid | _, _ => if same_su ta tb then Some ta else None end
       end.
(** [a op= b], given the type of a and the promoted type of b *)
Definition assign_op (o : sop) (ta tb : ty) : bool :=
  match o with
  | SEq | SNe | SLt | SLe | SGt | SGe => false
  | SAdd | SSub => is_arith tb && (is_arith ta || match ta with TPtr b => complete b | _ => false end)
  | _ => is_arith ta && is_arith tb
  end.
Definition int_t := TInt false.
(** What is called: a function, or a function through a pointer (6.5.2.2p1); its result *)
Definition called (t : ty) : option ty := match t with TFunc r | TPtr (TFunc r) => Some r | _ => None end.
(** Arrays and functions are passed as pointers *)
Definition decay (t : ty) : ty := match t with TArr b _ => TPtr b | TFunc r => TPtr (TFunc r) | _ => t end.

Fixpoint ctype (e : cexpr) : option ty :=
  match e with
  | CNum t _ => if is_arith t then Some t else None
  | CVar _ t => match t with TVla _ => None | _ => Some t end
  | CPlus a | CNeg a | CBitNot a => let* t := ctype a in if is_arith t then Some (operand_type a t) else None
  | CNot a => let* t := ctype a in if valued t then Some int_t else None
  | CBin o a b => let* ta := ctype a in let* tb := ctype b in bin_type o (operand_type a ta) (operand_type b tb)
  | CAnd a b | COr a b => let* ta := ctype a in let* tb := ctype b in if valued ta && valued tb then Some int_t else None
  | CCond c a b =>
      let* tc := ctype c in let* ta := ctype a in let* tb := ctype b in
      if valued tc then cond_type (operand_type a ta) (operand_type b tb) else None
  | CElvis a b =>
      let* ta := ctype a in let* tb := ctype b in
      if scalar ta then cond_type (operand_type a ta) (operand_type b tb) else None
  | CComma a b => let* ta := ctype a in ctype b
  | CCast t a => let* ta := ctype a in match t with TVoid => Some t | _ => if scalar t && valued ta then Some t else None end
  | CAssign l r =>
      let* tl := ctype l in let* tr := ctype r in
      if is_lval l && (scalar tl && valued tr || same_su tl tr) then Some tl else None
  | COpAssign o l r =>
      let* tl := ctype l in let* tr := ctype r in
      if is_lval l && assign_op o tl (operand_type r tr) then Some tl else None
  | CPreInc l | CPreDec l | CPostInc l | CPostDec l => let* tl := ctype l in if is_lval l && assign_op SAdd tl int_t then Some tl else None
  | CDeref a =>
      let* ta := ctype a in
      match ta with
      | TFunc _ => Some ta
      | _ => match pointee ta with None | Some TVoid | Some (TVla _) => None | b => b end
      end
  | CAddr l => let* tl := ctype l in if is_lval l then match bits_of l with None => Some (TPtr tl) | Some _ => None end else None
  | CIndex a i =>
      let* ta := ctype a in let* ti := ctype i in
      match bin_type SAdd (operand_type a ta) (operand_type i ti) with
      | Some (TPtr TVoid) => None
      | Some (TPtr b) => Some b
      | _ => None
      end
  | CDot l m => let* tl := ctype l in if is_su tl && bf_fits (m_ty m) (m_bf m) then match m_ty m with TVla _ => None | t => Some t end else None
  | CArrow a m =>
      let* ta := ctype a in
      match pointee ta with
      | Some b => if is_su b && bf_fits (m_ty m) (m_bf m) then match m_ty m with TVla _ => None | t => Some t end else None
      | None => None
      end
  | CCall f ps va args =>                    (* structs and unions: not here *)
      let* tf := ctype f in let* r := called tf in
      if (match r with TVoid => true | _ => scalar r end) &&
         (fix go (l : list cexpr) (ps : list ty) : bool :=
            match l, ps with
            | [], [] => true
            | [], _ :: _ => false
            | a :: l, _ => match ctype a with
                           | Some ta => valued ta && match ps with p :: ps => scalar p && go l ps | [] => va && go l [] end
                           | None => false
                           end
            end) args ps
      then Some r else None
  end.

(** ** Values *)
(** Pointers move by elements (6.5.6p8); the distance stays inside the address space *)
Definition ptr_add (b : ty) (x y : Z) : option Z :=
  let d := y * size_of b in if in_range true 64 d then Some ((x + d) mod 2 ^ 64) else None.
Definition ptr_sub (b : ty) (x y : Z) : option Z :=
  let d := y * size_of b in if in_range true 64 d then Some ((x - d) mod 2 ^ 64) else None.
(** The distance of two elements of an array (6.5.6p9) *)
Definition ptr_diff (b : ty) (x y : Z) : option Z :=
  let d := x - y in if in_range true 64 d && (d mod size_of b =? 0) then Some (d / size_of b) else None.
Definition arith_op (o : bop) (ta tb : ty) (x y : Z) : option Z :=
  let t := usual ta tb in let* x := conv t x in let* y := conv t y in bin_val o t x y.
Definition compare_op (o : bop) (ta tb : ty) (x y : Z) : option Z :=
  if is_arith ta && is_arith tb then arith_op o ta tb x y
  else match pointee ta, pointee tb with
       | Some _, Some _ => bin_val o (TPtr TVoid) x y
       | Some _, None => if y =? 0 then bin_val o (TPtr TVoid) x 0 else None      (* a null pointer *)
       | None, Some _ => if x =? 0 then bin_val o (TPtr TVoid) 0 y else None
       | _, _ => None
       end.
(** The value of [x op y]; the types are those of the operands after promotion *)
Definition bin_op (o : sop) (ta tb : ty) (x y : Z) : option Z :=
  match o with
  | SAdd =>
      if is_arith ta && is_arith tb then arith_op Add ta tb x y
      else match pointee ta, pointee tb with
           | Some b, None => ptr_add b x y
           | None, Some b => ptr_add b y x
           | _, _ => None
           end
  | SSub =>
      if is_arith ta && is_arith tb then arith_op Sub ta tb x y
      else match pointee ta, pointee tb with
           | Some b, None => ptr_sub b x y
           | Some b, Some _ => ptr_diff b x y
           | None, _ => None
           end
  | SMul => arith_op Mul ta tb x y | SDiv => arith_op Div ta tb x y | SMod => arith_op Mod ta tb x y
  | SAnd => arith_op And ta tb x y | SOr => arith_op Or ta tb x y | SXor => arith_op Xor ta tb x y
  | SShl => bin_val Shl ta x y | SShr => bin_val Shr ta x y
  | SEq => compare_op Eq ta tb x y | SNe => compare_op Ne ta tb x y
  | SLt => compare_op Lt ta tb x y | SLe => compare_op Le ta tb x y
  | SGt => compare_op Lt tb ta y x | SGe => compare_op Le tb ta y x
  end.
(** The order in which the operands of an operator are evaluated is unspecified in C11; the
    order taken here is: the right one first, except for > and >= and for a number plus a
    pointer. The sides of an assignment: the address, then the right side. *)
Definition right_first (o : sop) (ta tb : ty) : bool :=
  match o with
  | SGt | SGe => false
  | SAdd => match pointee tb with Some _ => false | None => true end
  | _ => true
  end.

Section Values.
Variable addr : var -> Z.          (* where the variables are *)
Variable valid : Z -> bool.        (* the addresses the program may use *)
(** What functions do: given the address of the function, the types of the arguments and of
    the result and the values of the arguments *)
Variable call : Z -> list ty -> ty -> list Z -> mem -> option (Z * mem).
Definition read (b : option (Z * Z)) (t : ty) (m : mem) (a : Z) : option Z :=
  match b with None => load_val valid t m a | Some (o, w) => load_bf valid t o w m a end.
(** Storing [v]; the result is the value of the assignment: that of the object afterwards *)
Definition write (b : option (Z * Z)) (t : ty) (m : mem) (a v : Z) : option (Z * mem) :=
  match b with
  | None => let* m := store_val valid t m a v in Some (v, m)
  | Some (o, w) => let* m := store_bf valid t o w m a v in Some (if bf_signed t then sx w v else v mod 2 ^ w, m)
  end.
Definition ty_of (e : cexpr) : ty := match ctype e with Some t => t | None => TVoid end.
Definition op_of (e : cexpr) : ty := operand_type e (ty_of e).
(** An argument is converted to the type of its parameter; without one, it is promoted
    (6.5.2.2p7) *)
Fixpoint arg_types (l : list cexpr) (ps : list ty) : list ty :=
  match l, ps with
  | [], _ => []
  | _ :: l, p :: ps => p :: arg_types l ps
  | a :: l, [] => decay (op_of a) :: arg_types l []
  end.
Definition bin_order (rf : bool) (fa fb : mem -> option (Z * mem)) (m : mem) : option (Z * Z * mem) :=
  if rf then let* (y, m) := fb m in let* (x, m) := fa m in Some (x, y, m)
  else let* (x, m) := fa m in let* (y, m) := fb m in Some (x, y, m).
(** [cev true e]: the address of the object, [cev false e]: the value *)
Fixpoint cev (lv : bool) (e : cexpr) (m : mem) {struct e} : option (Z * mem) :=
  let at_ b t (r : option (Z * mem)) := let* (a, m) := r in if lv then Some (a, m) else let* v := read b t m a in Some (v, m) in
  let modify b t (f : Z -> option Z) (post : bool) (r : option (Z * mem)) :=
    let* (a, m) := r in
    let* x := read b t m a in let* z := f x in let* z := conv t z in
    let* (w, m) := write b t m a z in Some (if post then x else w, m) in
  match e with
  | CVar x t => at_ None t (Some (addr x, m))
  | CDeref a =>
      match ty_of a with
      | TFunc _ => cev lv a m
      | _ => at_ None (ty_of e) (cev false a m)
      end
  | CIndex a i =>
      at_ None (ty_of e)
        (let* (x, y, m) := bin_order (right_first SAdd (op_of a) (op_of i)) (cev false a) (cev false i) m in
         let* v := bin_op SAdd (op_of a) (op_of i) x y in Some (v, m))
  | CDot l mi => at_ (m_bf mi) (m_ty mi) (let* (a, m) := cev (is_lval l) l m in Some ((a + m_off mi) mod 2 ^ 64, m))
  | CArrow p mi => at_ (m_bf mi) (m_ty mi) (let* (a, m) := cev false p m in Some ((a + m_off mi) mod 2 ^ 64, m))
  | _ =>
    if lv then None else
    match e with
    | CNum t v => if val_of t v then Some (v, m) else None
    | CPlus a => cev false a m
    | CNeg a => let* (x, m) := cev false a m in let* x := conv (ty_of e) x in let* v := neg_val (ty_of e) x in Some (v, m)
    | CBitNot a => let* (x, m) := cev false a m in let* v := bitnot_val (ty_of e) x in Some (v, m)
    | CNot a => let* (x, m) := cev false a m in Some (b2z (negb (truth x)), m)
    | CBin o a b =>
        let* (x, y, m) := bin_order (right_first o (op_of a) (op_of b)) (cev false a) (cev false b) m in
        let* v := bin_op o (op_of a) (op_of b) x y in Some (v, m)
    | CAnd a b =>
        let* (x, m) := cev false a m in
        if truth x then let* (y, m) := cev false b m in Some (b2z (truth y), m) else Some (0, m)
    | COr a b =>
        let* (x, m) := cev false a m in
        if truth x then Some (1, m) else let* (y, m) := cev false b m in Some (b2z (truth y), m)
    | CCond c a b =>
        let* (x, m) := cev false c m in
        let* (v, m) := (if truth x then cev false a m else cev false b m) in let* v := conv (ty_of e) v in Some (v, m)
    | CElvis a b =>
        let* (x, m) := cev false a m in
        let* (v, m) := (if truth x then Some (x, m) else cev false b m) in let* v := conv (ty_of e) v in Some (v, m)
    | CComma a b => let* (_, m) := cev false a m in cev false b m
    | CCast t a => let* (x, m) := cev false a m in let* v := conv t x in Some (v, m)
    | CAssign l r =>
        let* (a, m) := cev true l m in let* (v, m) := cev false r m in
        let* v := conv (ty_of l) v in write (bits_of l) (ty_of l) m a v
    | COpAssign o l r =>
        let* (a, m) := cev true l m in let* (y, m) := cev false r m in
        let* x := read (bits_of l) (ty_of l) m a in
        let* z := bin_op o (op_of l) (op_of r) x y in let* z := conv (ty_of l) z in write (bits_of l) (ty_of l) m a z
    | CPreInc l => modify (bits_of l) (ty_of l) (fun x => bin_op SAdd (op_of l) int_t x 1) false (cev true l m)
    | CPreDec l => modify (bits_of l) (ty_of l) (fun x => bin_op SSub (op_of l) int_t x 1) false (cev true l m)
    | CPostInc l => modify (bits_of l) (ty_of l) (fun x => bin_op SAdd (op_of l) int_t x 1) true (cev true l m)
    | CPostDec l => modify (bits_of l) (ty_of l) (fun x => bin_op SSub (op_of l) int_t x 1) true (cev true l m)
    | CAddr l => cev true l m
    | CCall f ps va args =>
        (* unspecified in C11: the order. Here from the last argument to the first, then the function *)
        let* (vs, m) := (fix go (l : list cexpr) (ps : list ty) (m : mem) {struct l} : option (list Z * mem) :=
                           match l with
                           | [] => Some ([], m)
                           | a :: l =>
                               let* (vs, m) := go l (List.tl ps) m in let* (v, m) := cev false a m in
                               let* v := match ps with p :: _ => conv p v | [] => Some v end in Some (v :: vs, m)
                           end) args ps m in
        let* (fa, m) := cev false f m in
        let* (v, m) := call fa (arg_types args ps) (ty_of e) vs m in
        match ty_of e with TVoid => Some (0, m) | _ => if val_of (ty_of e) v then Some (v, m) else None end
    | _ => None
    end
  end.
End Values.

(** ** What the trees do not do right *)
(** At least 32 bits wide, so that there is nothing to promote *)
Definition wide (e : cexpr) : bool := match bits_of e with Some _ => false | None => 4 <=? size_of (ty_of e) end.
(** Not a bit-field that must be promoted from unsigned int to int *)
Definition promotable (e : cexpr) : bool :=
  match bits_of e, ty_of e with Some (_, w), TInt true => 32 <=? w | _, _ => true end.
Definition is_array (t : ty) : bool := match t with TArr _ _ => true | _ => false end.
Definition big (t : ty) : bool := negb (is_su t) || (4 <=? size_of t).
Fixpoint plain (e : cexpr) : bool :=
  match e with
  | CNum _ _ | CVar _ _ => true
  | CPlus a | CBitNot a => wide a && plain a
  | CNeg a => promotable a && plain a
  | CNot a | CCast _ a | CDeref a | CDot a _ | CArrow a _ => plain a
  | CBin o a b =>
      plain a && plain b && promotable a && promotable b &&
      match o with
      | SShl | SShr => wide a
      | SEq | SNe => negb (is_arith (ty_of a) && is_array (ty_of b))
      | _ => true
      end
  | CAnd a b | COr a b | CComma a b | CAssign a b => plain a && plain b
  | CIndex a b => plain a && plain b && promotable a && promotable b
  | CCond c a b =>
      plain c && plain a && plain b && promotable a && promotable b && negb (is_arith (ty_of a) && is_array (ty_of b)) && big (ty_of a)
  | CElvis a b => plain a && plain b && promotable a && promotable b && negb (is_arith (ty_of a) && is_array (ty_of b))
  | COpAssign o l r =>
      plain l && plain r && promotable l && promotable r && match o with SShl | SShr => wide l | _ => true end
  | CPreInc l | CPreDec l => plain l && promotable l
  | CPostInc l | CPostDec l => plain l && match bits_of l, ty_of l with None, TBool => false | None, _ => true | _, _ => false end
  | CAddr l => plain l && negb (is_array (ty_of l))
  | CCall f ps _ args => plain f && forallb plain args && forallb promotable (skipn (List.length ps) args)
  end.
(** Functions see the memory of the program only, and do not tell a type from what it is
    promoted to: [call'] does with a larger memory what [call] does *)
Definition passed_as (a b : ty) : Prop := a = b \/ decay (promote a) = b.
Definition calls_agree (valid : Z -> bool) (call call' : Z -> list ty -> ty -> list Z -> mem -> option (Z * mem)) : Prop :=
  forall fa ts ts' r vs m m2 v m', call fa ts r vs m = Some (v, m') -> (forall a, valid a = true -> m a = m2 a) -> Forall2 passed_as ts' ts ->
    exists m2', call' fa ts' r vs m2 = Some (v, m2') /\ (forall a, valid a = true -> m' a = m2' a) /\ forall a, valid a = false -> m2' a = m2 a.

(** The same where every argument is passed as the type of its parameter *)
Definition calls_same (valid : Z -> bool) (call call' : Z -> list ty -> ty -> list Z -> mem -> option (Z * mem)) : Prop :=
  forall fa ts r vs m m2 v m', call fa ts r vs m = Some (v, m') -> (forall a, valid a = true -> m a = m2 a) ->
    exists m2', call' fa ts r vs m2 = Some (v, m2') /\ (forall a, valid a = true -> m' a = m2' a) /\ forall a, valid a = false -> m2' a = m2 a.
(** Only functions with a prototype are called, and none with a variable number of arguments *)
Fixpoint prototyped (e : cexpr) : bool :=
  match e with
  | CNum _ _ | CVar _ _ => true
  | CPlus a | CNeg a | CNot a | CBitNot a | CCast _ a | CPreInc a | CPreDec a | CPostInc a | CPostDec a | CDeref a | CAddr a | CDot a _ | CArrow a _ => prototyped a
  | CBin _ a b | CAnd a b | COr a b | CElvis a b | CComma a b | CAssign a b | COpAssign _ a b | CIndex a b => prototyped a && prototyped b
  | CCond c a b => prototyped c && prototyped a && prototyped b
  | CCall f _ va args => negb va && prototyped f && forallb prototyped args
  end.

(** The addresses of the temporary variables, those numbered from [k0] to below [kN]: usable
    by the code, not by the program *)
Record temporaries (addr : var -> Z) (valid all : Z -> bool) (k0 kN : nat) : Prop := {
  tm_sub : forall a, valid a = true -> all a = true;
  tm_rng : forall k, (k0 <= k < kN)%nat -> 0 <= addr (VLocal k) /\ addr (VLocal k) + 8 <= 2 ^ 64;
  tm_all : forall k a, (k0 <= k < kN)%nat -> addr (VLocal k) <= a < addr (VLocal k) + 8 -> all a = true /\ valid a = false;
  tm_apart : forall i j, (k0 <= i < kN)%nat -> (k0 <= j < kN)%nat -> i <> j -> addr (VLocal i) + 8 <= addr (VLocal j) \/ addr (VLocal j) + 8 <= addr (VLocal i) }.
