(** Model of constant expressions with floating point in them: eval2 and eval_double of
    /repo/parser/common.c:49-241 together, and the scalars write_gvar_data writes
    (/repo/parser/initializer.c:695-705). The double of the host that runs the compiler is
    binary64 rounded to nearest even; a NaN result is the canonical one. *)
From Verif Require Import Base TypeModel IntArith NodeModel EvalModel FpSpec.

(** The result of the function that belongs to the type of the node: CI, an int64_t and the
    name written through `label`; CD, the bits of a double. COut: long double constants, and a
    condition that is neither arithmetic. *)
Inductive cres := CI (v : Z) (l : option bytes) | CD (b : Z) | CErr | CUb | CCrash | COut.
Definition of_eres (e : eres) : cres := match e with EOk v l => CI v l | EErr => CErr | EUb => CUb | ECrash => CCrash | EFloat => COut end.
(** common.c:53-54: the conversion of the result of eval_double to int64_t; undefined if the
    integral part does not fit *)
Definition as_int (e : cres) (k : Z -> option bytes -> cres) : cres :=
  match e with
  | CI v l => k v l
  | CD b => match ftrunc B64 b with Some z => if (- 2 ^ 63 <=? z) && (z <? 2 ^ 63) then k z None else CUb | None => CUb end
  | r => r
  end.
(** common.c:198-203: eval_double of a node of type [t] *)
Definition as_double (t : ty) (e : cres) (k : Z -> cres) : cres :=
  match e with
  | CI v _ => if is_integer t then k (fof B64 (if is_unsigned t then u64 v else v)) else COut
  | CD b => k b
  | r => r
  end.
Definition nonzero (b : Z) : bool := negb (fcmp FEq B64 b 0).

(** [fv]: node->fval of a constant of type float, as a double. The scanner keeps what is
    written as a long double (tokenize.c:538) and the node keeps that (common.c:263), so that it need not be
    the value of the constant in its type; one [fv] per program, that is, constants that are
    written differently are taken not to round to the same float. *)
(** common.c:49-186 (the second half; as EvalModel.eval2) and 194-241 (the first half) *)
Section FV.
Variable fv : Z -> Z.
Fixpoint ceval (want : bool) (n : node) {struct n} : cres :=
  let dbl l := as_double (ntype l) (ceval false l) in
  let int w l := as_int (ceval w l) in
  if is_float (ntype n) then
    match n with
    | NBin Add _ l r => dbl l (fun x => dbl r (fun y => CD (fop FAdd B64 x y)))
    | NBin Sub _ l r => dbl l (fun x => dbl r (fun y => CD (fop FSub B64 x y)))
    | NBin Mul _ l r => dbl l (fun x => dbl r (fun y => CD (fop FMul B64 x y)))
    | NBin Div _ l r => dbl l (fun x => dbl r (fun y => CD (fop FDiv B64 x y)))
    | NNeg _ l => dbl l (fun x => CD (fneg B64 x))
    | NCond c a b => dbl c (fun x => if nonzero x then dbl a CD else dbl b CD)
    | NComma _ r => dbl r CD
    | NCast _ l => if is_float (ntype l) then dbl l CD else int false l (fun v _ => CD (fof B64 v))
    | NNum TFloat v => CD (fv v)
    (* node->fval as a double is the value in its type *)
    | NNum TDouble v => CD v
    | NNum _ _ => COut
    | _ => CErr
    end
  else
  match n with
  | NBin o t l r =>
      let lw := match o with Add | Sub => want | _ => false end in
      int lw l (fun x lab => int false r (fun y _ => of_eres (eval_bin o t (ntype l) x y lab)))
  | NNeg _ l => int false l (fun x _ => of_eres (chk64 (- x) None))
  | NCond c a b => int false c (fun x _ => if x =? 0 then int want b CI else int want a CI)
  | NComma _ r => int want r CI
  | NNot l => int false l (fun x _ => CI (zb (x =? 0)) None)
  | NBitNot l => int false l (fun x _ => CI (Z.lnot x) None)
  | NLogAnd l r => int false l (fun x _ => if x =? 0 then CI 0 None else int false r (fun y _ => CI (zb (negb (y =? 0))) None))
  | NLogOr l r => int false l (fun x _ => if negb (x =? 0) then CI 1 None else int false r (fun y _ => CI (zb (negb (y =? 0))) None))
  | NCast t l => int want l (fun x lab => CI (eval_cast t x) lab)
  | NAddr l => ceval_rval want l
  | NMember l i =>
      if negb want then CErr
      else match m_ty i with
           | TArr _ _ => as_int (ceval_rval want l) (fun x lab => of_eres (chk64 (x + m_off i) lab))
           | _ => CErr
           end
  | NVar x t =>
      if negb want then CErr
      else match t with
           | TArr _ _ | TFunc _ => match x with VGlobal s => CI 0 (Some s) | VLocal _ => CI 0 (Some []) end
           | _ => CErr
           end
  | NNum _ v => CI (sx 64 v) None
  | _ => CErr
  end
(** common.c:19-41 eval_rval *)
with ceval_rval (want : bool) (n : node) {struct n} : cres :=
  match n with
  | NVar (VLocal _) _ => CErr
  | NVar (VGlobal s) _ => if want then CI 0 (Some s) else CCrash
  | NDeref l => as_int (ceval want l) CI
  | NMember l i => as_int (ceval_rval want l) (fun x lab => of_eres (chk64 (x + m_off i) lab))
  | _ => CErr
  end.
(** common.c:189-192 eval and 194-241 eval_double *)
Definition eval_int (n : node) : cres := as_int (ceval false n) CI.
Definition eval_double (n : node) : cres := as_double (ntype n) (ceval false n) CD.
(** initializer.c:696-705: the bits written for an object of type float or double *)
Definition static_float (t : ty) (n : node) : cres :=
  match t with
  | TFloat => as_double (ntype n) (ceval false n) (fun b => CD (fconv B64 B32 b))
  | TDouble => eval_double n
  | _ => COut
  end.
End FV.
