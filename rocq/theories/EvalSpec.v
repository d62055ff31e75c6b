(** When the constant evaluator is known to agree with C11. *)
From Verif Require Import Base TypeModel IntArith NodeModel ValSpec NodeSpec.

(** How much of the value is right: all of it, or its low 32 bits. *)
Inductive grade := Full | Low.
Definition agrees (g : grade) (v r : Z) : Prop :=
  match g with Full => r = sx 64 v | Low => eqm 32 r v end.

Definition low (g : option grade) : option grade := match g with Some _ => Some Low | None => None end.
Definition meet (a b : option grade) : option grade :=
  match a, b with Some Full, Some Full => Some Full | Some _, Some _ => Some Low | _, _ => None end.
Definition full (g : option grade) : bool := match g with Some Full => true | _ => false end.
Definition is_uint (t : ty) : bool := match t with TInt true => true | _ => false end.
(** int, enum, long and the unsigned ones of the same size; pointers too *)
Definition wide (t : ty) : bool := match t with TInt _ | TEnum | TLong _ | TPtr _ => true | _ => false end.

(** [grade_of n]: constant expressions for which the evaluator's result is right
    ([Full]), or right in its low 32 bits ([Low]: an unsigned int computed with
    +, -, *, ~, << or unary minus, before any conversion). None: not covered. *)
Fixpoint grade_of (n : node) : option grade :=
  match n with
  | NNum t v => if val_of t v then Some Full else None
  | NCast t l =>
      if negb (convertible (ntype l) t) then None
      else match t with
           | TBool => match ntype l with TBool => grade_of l | _ => None end
           | TChar _ | TShort _ | TInt _ | TEnum => match grade_of l with Some _ => Some Full | None => None end
           | TLong _ | TPtr _ => if full (grade_of l) then Some Full else None
           | _ => None
           end
  | NNeg t l =>
      if wide t && full (grade_of l) then (if is_uint t then Some Low else Some Full) else None
  | NBitNot l =>
      if wide (ntype l) then (if is_uint (ntype l) then low (grade_of l) else if full (grade_of l) then Some Full else None) else None
  | NNot l => if is_scalar (ntype l) && full (grade_of l) then Some Full else None
  | NLogAnd l r | NLogOr l r => if full (grade_of l) && full (grade_of r) then Some Full else None
  | NCond c a b => if full (grade_of c) then meet (grade_of a) (grade_of b) else None
  | NComma _ r => grade_of r
  | NBin o t l r =>
      match o with
      | Add | Sub | Mul =>
          if wide t && same_repr t (ntype l) && full (grade_of l) && full (grade_of r) then (if is_uint t then Some Low else Some Full) else None
      | Div | Mod => if wide t && full (grade_of l) && full (grade_of r) then Some Full else None
      | And | Or | Xor => if wide t then meet (grade_of l) (grade_of r) else None
      | Eq | Ne | Lt | Le => if wide (ntype l) && wide (ntype r) && full (grade_of l) && full (grade_of r) then Some Full else None
      | Shl => if wide t && full (grade_of l) && full (grade_of r) then (if is_uint t then Some Low else Some Full) else None
      | Shr => if wide t && full (grade_of l) && full (grade_of r) then Some Full else None
      end
  | _ => None
  end.

(** The evaluator's own arithmetic cannot overflow: no unsigned long (or pointer)
    +, -, *, unary minus, no product of unsigned ints. *)
Fixpoint host_safe (n : node) : bool :=
  let sgn t := match t with TInt false | TEnum | TLong false => true | _ => false end in
  match n with
  | NCast _ l | NNot l | NBitNot l => host_safe l
  | NNeg t l => (sgn t || is_uint t) && host_safe l
  | NLogAnd l r | NLogOr l r => host_safe l && host_safe r
  | NComma _ r => host_safe r
  | NCond c a b => host_safe c && host_safe a && host_safe b
  | NBin o t l r =>
      host_safe l && host_safe r &&
      match o with Add | Sub => sgn t || is_uint t | Mul => sgn t | _ => true end
  | _ => true
  end.

(** [n] is a constant expression whose value is [v]: it has this value in every
    environment and every memory. *)
Definition constant_value (n : node) (v : Z) : Prop :=
  forall E m, env_ok E -> exists m', ev E false n m = Some (v, m').

(** C11 6.7.2.2p3: the value of every enumerator. [given i]: the value of the i-th
    one is given by an expression. *)
Definition enum_rule (given : list (option Z)) (vals : list Z) : Prop :=
  List.length vals = List.length given /\
  forall i v, nth_error vals i = Some v ->
    match nth_error given i with
    | Some (Some g) => v = g
    | _ => match i with O => v = 0 | S j => exists p, nth_error vals j = Some p /\ v = p + 1 end
    end.
