(** What it means for the generated code to be right, and for which expressions it
    is claimed. *)
From Verif Require Import Base TypeModel IntArith NodeModel ValSpec NodeSpec RvSpec.

(** The register content [r] is right for the value [v] in its low [w] bits. With
    [w] = 64 it is the two's complement representation of [v]; with [w] = 0 nothing
    is said. *)
Definition rep (w v r : Z) : Prop := r mod 2 ^ w = v mod 2 ^ w.

(** ** How many low bits of the result are right *)
(** The class of a type as the code generator sees it: what is not a char, short, int
    or long counts as unsigned long. *)
Definition reg_class (t : ty) : bool * Z :=
  match t with
  | TChar u => (negb u, 8) | TShort u => (negb u, 16) | TInt u => (negb u, 32) | TLong u => (negb u, 64)
  | _ => (false, 64)
  end.
(** Conversions for which instructions are emitted: to a smaller type, or from a signed
    to an unsigned type of less than 64 bits. (Conversion from an unsigned type to the
    signed type of the same size is not among them.) *)
Definition truncates (f t : ty) : bool :=
  let (s, n) := reg_class f in let (s', n') := reg_class t in (n' <? 64) && ((n' <? n) || (s && negb s')).
(** Every value of the first type is a value of the second. *)
Definition range_sub (p q : bool * Z) : bool :=
  let (s, n) := p in let (s', n') := q in (Bool.eqb s s' && (n <=? n')) || (negb s && s' && (n <? n')).
Definition repr_or_addr (t : ty) : bool * Z := match int_repr t with Some p => p | None => (false, 64) end.
Definition cast_qual (f t : ty) (w : Z) : Z :=
  match t with
  | TVoid => 0
  | TBool => if w =? 64 then 64 else 0
  | _ =>
      match int_repr t with
      | None => w
      | Some (s', n') =>
          if truncates f t then (if n' <=? w then 64 else w)
          else if range_sub (repr_or_addr f) (s', n') then w else Z.min w n'
      end
  end.

(** [t]: type of the result, [tl]: of the left operand, [a], [b]: the bits right in the
    operands. None: not covered. *)
Definition is64 (tl : ty) : bool := match tl with TLong _ => true | _ => has_base tl end.
Definition bin_qual (o : bop) (t tl : ty) (a b : Z) : option Z :=
  match int_repr t with
  | None => None
  | Some (s, n) =>
      match o with
      | Add | Sub | Mul =>
          if is64 tl then (if n =? 64 then Some (Z.min a b) else None)
          else if n =? 32 then Some (if (32 <=? a) && (32 <=? b) then (if s then 64 else 32) else Z.min a b) else None
      | Div | Mod =>
          if negb (Bool.eqb (is_unsigned t) (negb s)) then None
          else if is64 tl then (if (a =? 64) && (b =? 64) && (n =? 64) then Some 64 else None)
          else if (32 <=? a) && (32 <=? b) && (n =? 32) then Some (if s then 64 else 32) else None
      | And | Or | Xor => Some (Z.min a b)
      | Eq | Ne | Lt => if (a =? 64) && (b =? 64) then Some 64 else None
      | Le => match int_repr tl with Some (false, 64) => None | _ => if (a =? 64) && (b =? 64) then Some 64 else None end
      | Shl =>
          if b <? 8 then None
          else if is64 tl then Some a
          else if n <=? 32 then Some (if 32 <=? a then (if s then 64 else n) else Z.min a n) else None
      | Shr =>
          if b <? 8 then None
          else if is64 tl then (if (a =? 64) && (n =? 64) then Some 64 else None)
          else if (32 <=? a) && (n <=? 32) then Some (if s || (n <? 32) then 64 else 32) else None
      end
  end.
(** What the caller expects in a0 of the result of a function *)
Definition ret_bits (t : ty) : Z :=
  match t with
  | TVoid => 0
  | TBool | TChar _ => 8
  | TShort _ => 16
  | TInt true => 32
  | _ => 64
  end.
(** After the caller has narrowed it *)
Definition call_qual (t : ty) : Z := match t with TVoid => 0 | TInt true => 32 | _ => 64 end.
Definition bool_field (t : ty) : bool := match t with TBool => true | _ => false end.
Definition loadable (t : ty) : bool := match int_repr t with Some _ => true | None => is_aggregate t && negb (match t with TVla _ => true | _ => false end) end.

(** [qual lv n]: the number of low bits of a0 that are right after the code of [n] (its
    address if [lv]). None: not covered, because what the code does is wrong or outside the
    model (see the refutations in GenProps). *)
Fixpoint qual (lv : bool) (n : node) : option Z :=
  match n with
  | NNull | NMemzero _ _ => if lv then None else Some 0
  | NNum t _ => if lv then None else if is_float t then None else Some 64
  | NVar x t => if lv || loadable t then Some 64 else None
  | NMember l i =>
      let* a := qual true l in
      if negb (a =? 64) then None
      else if lv then Some 64
      else match m_bf i with
           | None => if loadable (m_ty i) then Some 64 else None
           | Some _ => if bool_field (m_ty i) then None else Some 64
           end
  | NDeref l =>
      let* a := qual false l in
      if (a =? 64) && (lv || loadable (ntype n)) then Some 64 else None
  | NAddr l => if lv then None else qual true l
  | NAssign l r =>
      if lv && negb (is_struct_union (ntype l)) then None else
      let* a := qual true l in let* b := qual false r in
      if negb (a =? 64) then None
      else match l with
           | NMember _ (MInfo t _ (Some (o, w))) => if (w <=? b) && negb (bool_field t) then Some 0 else None
           | _ => if is_struct_union (ntype l) then (if b =? 64 then Some 64 else None)
                  else if 8 * size_of (ntype l) <=? b then Some b else None
           end
  | NComma l r => let* _ := qual false l in qual lv r
  | NCast t l => if lv then None else if is_float t then None else let* a := qual false l in Some (cast_qual (ntype l) t a)
  | NCond c a b =>
      if lv && negb (is_struct_union (ntype n)) then None else
      let* x := qual false c in let* y := qual false a in let* z := qual false b in
      if x =? 64 then Some (Z.min y z) else None
  | NNeg t l =>
      if lv then None else
      let* a := qual false l in
      match int_repr t with
      | Some (s, n) =>
          if n =? 64 then Some a
          else if n =? 32 then Some (if 32 <=? a then (if s then 64 else 32) else a) else None
      | None => None
      end
  | NNot l => if lv then None else let* a := qual false l in if a =? 64 then Some 64 else None
  | NBitNot l =>
      if lv then None else
      let* a := qual false l in
      match int_repr (ntype l) with
      | Some (true, _) => Some a
      | Some (false, n) => Some (Z.min a n)
      | None => None
      end
  | NLogAnd l r | NLogOr l r =>
      if lv then None else
      let* a := qual false l in let* b := qual false r in
      if (a =? 64) && (b =? 64) then Some 64 else None
  | NBin o t l r =>
      if lv then None else
      let* a := qual false l in let* b := qual false r in bin_qual o t (ntype l) a b
  | NCall f args t =>
      if lv then None else
      let* a := qual false f in
      if (a =? 64) && (match ntype f with TFunc _ | TPtr _ => true | _ => false end) &&
         forallb (fun x => match qual false x, int_repr (ntype x) with Some q, Some _ => 8 * size_of (ntype x) <=? q | _, _ => false end) args
      then Some (call_qual t) else None
  end.

(** ** Stack space: 8-byte slots *)
Fixpoint need (n : node) : Z :=
  match n with
  | NNull | NNum _ _ | NVar _ _ | NMemzero _ _ => 0
  | NMember l _ | NDeref l | NAddr l | NCast _ l | NNeg _ l | NNot l | NBitNot l => need l
  | NAssign l r => Z.max (need l) (1 + need r)
  | NComma l r | NLogAnd l r | NLogOr l r => Z.max (need l) (need r)
  | NCond c a b => Z.max (need c) (Z.max (need a) (need b))
  | NBin _ _ l r => Z.max (need r) (1 + need l)
  | NCall f args _ => 1 + Z.of_nat (List.length args) + fold_right (fun a k => Z.max (need a) k) (need f) args
  end.

(** ** The machine and the program *)
Section Sim.
Variable E : env.                (* the meaning of the program *)
Variable W : world.              (* the machine it runs on *)
Variable goff : nat -> Z.        (* offsets of the local variables *)
Variable fp : Z.                 (* the frame pointer *)
Variable room : Z.                (* stack the functions that are called may use, in bytes *)

Definition regs_ok (rs : regs) : Prop := rs Zero = 0 /\ forall r, 0 <= rs r < 2 ^ 64.
(** The program's memory is that of the machine. *)
Definition same_mem (m ms : mem) : Prop := forall a, e_valid E a = true -> ms a = m a.
Definition matches (m : mem) (s : state) : Prop := regs_ok (rg s) /\ rg s Fp = fp /\ same_mem m (mm s).
(** Between [lo] and the stack pointer, and [room] bytes below [lo], there is nothing of the
    program. *)
Definition free_stack (lo : Z) (s : state) : Prop :=
  0 <= room <= lo /\ forall a, lo - room <= a < rg s Sp -> e_valid E a = false.
(** The stack above the stack pointer, except for the program's objects, is unchanged. *)
Definition above_same (s s' : state) : Prop :=
  rg s' Sp = rg s Sp /\ forall a, e_valid E a = false -> rg s Sp <= a -> mm s' a = mm s a.

(** Symbols and locals are where the program's environment says. *)
Record setting : Prop := {
  set_env : env_ok E;
  set_sym : forall s, W.(w_sym) s = e_addr E (VGlobal s);
  set_loc : forall k, e_addr E (VLocal k) = (fp + goff k) mod 2 ^ 64;
}.

(** The functions that are called follow the calling convention: arguments in a0-a7 and
    then on the stack (only as many low bits as the type of the argument has are
    significant), result in a0, sp and fp and the caller's stack preserved; they may change
    the stack slots of the arguments, which are not part of the program's memory. *)
Definition arg_at (rs : regs) (ms : mem) (i : nat) : Z :=
  if Nat.ltb i 8 then rs (A i) else le_load ms (rs Sp + 8 * (Z.of_nat i - 8)) 8.
Definition call_ok (p : prog) : Prop := forall k r fa tys t vs m v m' rs ms lo,
  nth_error p k = Some (ICall r) -> rs r = fa ->
  e_call E fa tys t vs m = Some (v, m') ->
  List.length tys = List.length vs ->
  (forall i ty x, nth_error tys i = Some ty -> nth_error vs i = Some x -> rep (8 * size_of ty) x (arg_at rs ms i)) ->
  regs_ok rs -> rs Fp = fp -> same_mem m ms -> free_stack lo (St k rs ms) -> lo <= rs Sp ->
  rs Sp + 8 * Z.of_nat (List.length vs - 8) < 2 ^ 64 ->
  (forall a, rs Sp <= a < rs Sp + 8 * Z.of_nat (List.length vs - 8) -> e_valid E a = false) ->
  exists rs' ms', star W p (St k rs ms) (St (S k) rs' ms') /\
    rep (ret_bits t) v (rs' (A 0)) /\ regs_ok rs' /\ rs' Sp = rs Sp /\ rs' Fp = rs Fp /\ same_mem m' ms' /\
    (forall a, e_valid E a = false -> rs Sp + 8 * Z.of_nat (List.length vs - 8) <= a -> ms' a = ms a).
(** The labels of the program are distinct and its calls behave. *)
Definition linked (p : prog) : Prop := NoDup (labels p) /\ call_ok p.

(** Running the fragment [code], wherever it stands in such a program,
    from any state whose memory is [m], ends just after it with [v] in a0 (in its low [q]
    bits), the memory [m'], the stack pointer and the stack as before. *)
Definition computes (code : list instr) (q slots : Z) (m : mem) (v : Z) (m' : mem) : Prop :=
  forall p k s lo, code_at p k code -> linked p -> pc s = k -> matches m s ->
    free_stack lo s -> lo + 8 * slots <= rg s Sp ->
    exists s', star W p s s' /\ pc s' = (k + List.length code)%nat /\ rep q v (rg s' (A 0)) /\
      matches m' s' /\ above_same s s'.
End Sim.
