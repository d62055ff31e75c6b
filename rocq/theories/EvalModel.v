(** Model of constant expressions: /repo/parser/common.c:19-192, is_const_expr
    and enum_specifier of /repo/parser/declarator.c. The evaluation of floating
    point expressions (common.c:194-241) is not modelled. *)
From Verif Require Import Base TypeModel IntArith NodeModel.

(** Outcome of eval2: a value with the name written through `label`, if any; a
    diagnostic; undefined behaviour of the compiler itself (overflow of int64_t, a
    division trap, a shift out of range); a write through a null `label`; a
    floating point node. *)
Inductive eres := EOk (v : Z) (l : option bytes) | EErr | EUb | ECrash | EFloat.

(** int64_t arithmetic of the host; the C code is compiled without -fwrapv.
    GCC defines << on negative operands and >> as arithmetic. *)
Definition chk64 (z : Z) (l : option bytes) : eres := if (- 2 ^ 63 <=? z) && (z <? 2 ^ 63) then EOk z l else EUb.
Definition u64 (z : Z) : Z := z mod 2 ^ 64.
Definition bindE (e : eres) (k : Z -> option bytes -> eres) : eres :=
  match e with EOk v l => k v l | r => r end.
Definition zb (b : bool) : Z := if b then 1 else 0.

(** common.c:59-112, the binary operators on two values. [t] is node->ty and
    [tl] node->lhs->ty. *)
Definition eval_bin (o : bop) (t tl : ty) (x y : Z) (lab : option bytes) : eres :=
  match o with
  | Add => chk64 (x + y) lab
  | Sub => chk64 (x - y) lab
  | Mul => chk64 (x * y) None
  | Div =>
      if y =? 0 then EUb
      else if is_unsigned t then EOk (sx 64 (u64 x / u64 y)) None
      else chk64 (Z.quot x y) None
  | Mod =>
      if y =? 0 then EUb
      else if is_unsigned t then EOk (sx 64 (u64 x mod u64 y)) None
      else match chk64 (Z.quot x y) None with EUb => EUb | _ => EOk (Z.rem x y) None end
  | And => EOk (Z.land x y) None
  | Or => EOk (Z.lor x y) None
  | Xor => EOk (Z.lxor x y) None
  | Shl => if (0 <=? y) && (y <? 64) then EOk (sx 64 (x * 2 ^ y)) None else EUb
  | Shr =>
      if (0 <=? y) && (y <? 64) then
        if is_unsigned t && (size_of t =? 8) then EOk (sx 64 (u64 x / 2 ^ y)) None else EOk (x / 2 ^ y) None
      else EUb
  | Eq => EOk (zb (x =? y)) None
  | Ne => EOk (zb (negb (x =? y))) None
  | Lt => EOk (zb (if is_unsigned tl then u64 x <? u64 y else x <? y)) None
  | Le => EOk (zb (if is_unsigned tl then u64 x <=? u64 y else x <=? y)) None
  end.

(** common.c:134-153 *)
Definition eval_cast (t : ty) (v : Z) : Z :=
  if is_integer t then
    if size_of t =? 1 then (if is_unsigned t then v mod 2 ^ 8 else sx 8 v)
    else if size_of t =? 2 then (if is_unsigned t then v mod 2 ^ 16 else sx 16 v)
    else if size_of t =? 4 then (if is_unsigned t then v mod 2 ^ 32 else sx 32 v)
    else v
  else v.

(** common.c:49-186 eval2; [want] says whether `label` is non-null. ND_NUM holds
    the literal's value [v] as an int64_t. The names of local variables are not in
    the model; the empty name stands for the name of a local array, which the C
    code accepts here. *)
Fixpoint eval2 (want : bool) (n : node) {struct n} : eres :=
  if is_float (ntype n) then EFloat else
  match n with
  | NBin o t l r =>
      let lw := match o with Add | Sub => want | _ => false end in
      bindE (eval2 lw l) (fun x lab => bindE (eval2 false r) (fun y _ => eval_bin o t (ntype l) x y lab))
  | NNeg _ l => bindE (eval2 false l) (fun x _ => chk64 (- x) None)
  | NCond c a b => bindE (eval2 false c) (fun x _ => if x =? 0 then eval2 want b else eval2 want a)
  | NComma _ r => eval2 want r
  | NNot l => bindE (eval2 false l) (fun x _ => EOk (zb (x =? 0)) None)
  | NBitNot l => bindE (eval2 false l) (fun x _ => EOk (Z.lnot x) None)
  | NLogAnd l r =>
      bindE (eval2 false l) (fun x _ => if x =? 0 then EOk 0 None
                                        else bindE (eval2 false r) (fun y _ => EOk (zb (negb (y =? 0))) None))
  | NLogOr l r =>
      bindE (eval2 false l) (fun x _ => if negb (x =? 0) then EOk 1 None
                                        else bindE (eval2 false r) (fun y _ => EOk (zb (negb (y =? 0))) None))
  | NCast t l => bindE (eval2 want l) (fun x lab => EOk (eval_cast t x) lab)
  | NAddr l => eval_rval want l
  | NMember l i =>
      if negb want then EErr
      else match m_ty i with
           | TArr _ _ => bindE (eval_rval want l) (fun x lab => chk64 (x + m_off i) lab)
           | _ => EErr
           end
  | NVar x t =>
      if negb want then EErr
      else match t with
           | TArr _ _ | TFunc _ =>
               match x with VGlobal s => EOk 0 (Some s) | VLocal _ => EOk 0 (Some []) end
           | _ => EErr
           end
  | NNum _ v => EOk (sx 64 v) None
  | _ => EErr
  end
(** common.c:19-41 eval_rval: the address of an lvalue *)
with eval_rval (want : bool) (n : node) {struct n} : eres :=
  match n with
  | NVar (VLocal _) _ => EErr
  | NVar (VGlobal s) _ => if want then EOk 0 (Some s) else ECrash
  | NDeref l => eval2 want l
  | NMember l i => bindE (eval_rval want l) (fun x lab => chk64 (x + m_off i) lab)
  | _ => EErr
  end.
(** common.c:189-192 *)
Definition eval (n : node) : eres := eval2 false n.

(** declarator.c:720-765; ND_MOD is not in the list. [None]: the evaluation of the
    condition of ?: failed. *)
Fixpoint is_const_expr (n : node) : option bool :=
  match n with
  | NBin Mod _ _ _ => Some false
  | NBin _ _ l r | NLogAnd l r | NLogOr l r =>
      match is_const_expr l with Some true => is_const_expr r | x => x end
  | NCond c a b =>
      match is_const_expr c with
      | Some true => match eval c with EOk v _ => if v =? 0 then is_const_expr b else is_const_expr a | _ => None end
      | x => x
      end
  | NComma _ r => is_const_expr r
  | NNeg _ l | NNot l | NBitNot l | NCast _ l => is_const_expr l
  | NNum _ _ => Some true
  | _ => Some false
  end.

(** declarator.c:278-294: the values of an enumerator list, where each enumerator
    has an optional constant expression. `val` is an int; the conversion of the
    int64_t result of const_expr to it truncates. None: a diagnostic or undefined
    behaviour (val++ beyond INT_MAX). *)
Fixpoint enum_values (val : Z) (l : list (option node)) : option (list Z) :=
  match l with
  | [] => Some []
  | e :: r =>
      let* v := match e with
                | None => Some val
                | Some n => match eval n with EOk v _ => Some (sx 32 v) | _ => None end
                end in
      if v =? 2 ^ 31 - 1 then None
      else let* vs := enum_values (v + 1) r in Some (v :: vs)
  end.
