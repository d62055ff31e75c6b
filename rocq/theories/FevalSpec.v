(** Constant expressions with double in them whose folding is right. *)
From Verif Require Import Base TypeModel IntArith NodeModel ValSpec NodeSpec EvalSpec FpSpec FloatSpec.

(** The value, of type [t], as a double *)
Definition widen (t : ty) (v : Z) : Z := match fmt_of t with Some B32 => fconv B32 B64 v | _ => v end.
Definition is_double (t : ty) : bool := match t with TDouble => true | _ => false end.
(** integer types whose values are values of int64_t *)
Definition fits_long (t : ty) : bool := match t with TChar _ | TShort _ | TInt _ | TLong false => true | _ => false end.
(** Constants of type float that are written exactly, and what is computed in double from them, from doubles and from
    integers: integer constant expressions (EvalSpec), and conversions of doubles to integer
    types. Nothing is computed in float; a condition is a double, or an integer constant
    expression of a type smaller than long. *)
Definition folds_int (n : node) : bool :=
  int_only n && well_typed n && match grade_of n with Some Full => true | _ => false end && host_safe n.
Definition small_int (t : ty) : bool := match t with TBool | TChar _ | TShort _ | TInt _ => true | _ => false end.
(** [fv]: what is written for a constant of type float, as a double *)
Section FV.
Variable fv : Z -> Z.
Fixpoint folds (n : node) : bool :=
  match n with
  | NNum TFloat v => fv v =? fconv B32 B64 v
  | NNum TDouble _ => true
  | NBin (Add | Sub | Mul | Div) TDouble l r => is_double (ntype l) && is_double (ntype r) && folds l && folds r
  | NNeg TDouble l => is_double (ntype l) && folds l
  | NCond c a b => (is_double (ntype c) && folds c || small_int (ntype c) && folds_int c) && is_double (ntype a) && is_double (ntype b) && folds a && folds b
  | NComma _ r => match fmt_of (ntype r) with Some _ => folds r | None => false end
  | NCast TDouble l =>
      match fmt_of (ntype l) with
      | Some _ => folds l
      | None =>
          fits_long (ntype l) &&
          (folds_int l || match l with NCast t d => is_double (ntype d) && folds d | _ => false end)
      end
  | _ => false
  end.
End FV.

(** Values of integer types that both formats hold or round to the same float *)
Definition not_twice_rounded (t : ty) (v : Z) : bool := match fmt_of t with Some B32 => match decode B32 v with SpecFloat.S754_nan => false | _ => true end | Some B64 => true | None => Z.abs v <? 2 ^ 53 end.
