(** Model of declarators: /repo/parser/declarator.c:299-343 and 667-844. Specifiers and
    array sizes are single tokens: declspec is in TypeModel, expressions in ParseModel.
    Whether an identifier names a type is decided there (a typedef name is a specifier
    token). Attributes are not modelled. *)
From Verif Require Import Base IntArith.
Local Notation length := List.length.

(** Tokens. A qualifier: const, volatile, restrict (true for the spelling `restrict`),
    __restrict, __restrict__. DExpr: the size of an array, its value if it is a constant
    expression (is_const_expr, declarator.c:720-765, and eval) *)
Inductive dtok :=
  | DStar | DQual (restrict : bool) | DStatic | DLPar | DRPar | DLBrk | DRBrk | DComma | DDots
  | DId (x : bytes) | DSpec (b : bytes) | DVoid | DExpr (n : option Z) | DOther.
Definition voidb : bytes := bs "void".
Definition intb : bytes := bs "int".

(** Types: those of the specifiers, pointers, arrays (-1: no size), VLAs, functions with the
    names and types of the parameters *)
Inductive dty :=
  | Bas (b : bytes)
  | Ptr (t : dty)
  | Arr (n : Z) (t : dty)
  | Vla (t : dty)
  | Fun (ret : dty) (ps : list (option bytes * dty)) (variadic : bool).

Inductive dres (A : Type) := DOk (a : A) | DErr | DFuel.
Arguments DOk {A}. Arguments DErr {A}. Arguments DFuel {A}.

(** declarator.c:299-318 pointers; 306-312 the qualifiers after a star are ignored *)
Fixpoint quals (ts : list dtok) : list dtok := match ts with DQual _ :: r => quals r | _ => ts end.
Fixpoint pointers (fuel : nat) (ts : list dtok) (t : dty) : dres (dty * list dtok) :=
  match fuel with
  | O => DFuel
  | S fuel => match ts with DStar :: r => pointers fuel (quals r) (Ptr t) | _ => DOk (t, ts) end
  end.
(** declarator.c:771-772 *)
Fixpoint dim_quals (ts : list dtok) : list dtok := match ts with DStatic :: r | DQual true :: r => dim_quals r | _ => ts end.
(** type.c:267-273 array_of: the length is an int *)
Definition array_of (t : dty) (n : Z) : dty := Arr (sx 32 n) t.
Definition is_vla (t : dty) : bool := match t with Vla _ => true | _ => false end.
(** declarator.c:695-709 parameters of array and function type *)
Definition adjust (t : dty) : dty := match t with Arr _ b => Ptr b | Fun _ _ _ => Ptr t | _ => t end.
(** declspec, on its one token: without a specifier it is int (declarator.c:468) *)
Definition spec (ts : list dtok) : dty * list dtok :=
  match ts with
  | DSpec b :: r => (Bas b, r)
  | DVoid :: r => (Bas voidb, r)
  | _ => (Bas intb, ts)
  end.
Definition skip (k : dtok) (ts : list dtok) : option (list dtok) :=
  match k, ts with
  | DRPar, DRPar :: r | DRBrk, DRBrk :: r | DComma, DComma :: r => Some r
  | _, _ => None
  end.

Section Loops.
Variable suffix : list dtok -> dty -> dres (dty * list dtok).
(** declarator.c:768-791 array_dimension, after the bracket *)
Definition dimension (ts : list dtok) (t : dty) : dres (dty * list dtok) :=
  match dim_quals ts with
  | DRBrk :: r => match suffix r t with DOk (t, r) => DOk (array_of t (-1), r) | DErr => DErr | DFuel => DFuel end
  | DExpr n :: r =>
      match skip DRBrk r with
      | None => DErr
      | Some r =>
          match suffix r t with
          | DOk (t, r) =>
              match n with
              | Some n => if is_vla t then DOk (Vla t, r) else DOk (array_of t n, r)
              | None => DOk (Vla t, r)
              end
          | DErr => DErr
          | DFuel => DFuel
          end
      end
  | _ => DErr
  end.
Variable decl : list dtok -> dty -> dres (dty * option bytes * list dtok).
(** declarator.c:678-711 the loop of func_params *)
Fixpoint params (fuel : nat) (first : bool) (ts : list dtok) (acc : list (option bytes * dty)) : dres (list (option bytes * dty) * bool * list dtok) :=
  match fuel with
  | O => DFuel
  | S fuel =>
      match ts with
      | DRPar :: r => DOk (rev acc, false, r)
      | _ =>
          match (if first then Some ts else skip DComma ts) with
          | None => DErr
          | Some (DDots :: r) => match skip DRPar r with Some r => DOk (rev acc, true, r) | None => DErr end
          | Some ts =>
              let (b, r) := spec ts in
              match decl r b with
              | DOk (t, x, r) => params fuel false r ((x, adjust t) :: acc)
              | DErr => DErr
              | DFuel => DFuel
              end
          end
      end
  end.
(** declarator.c:667-718 func_params, after the parenthesis *)
Definition func_params (fuel : nat) (ts : list dtok) (t : dty) : dres (dty * list dtok) :=
  match ts with
  | DVoid :: DRPar :: r => DOk (Fun t [] false, r)
  | _ =>
      match params fuel true ts [] with
      | DOk (ps, v, r) => DOk (Fun t ps v, r)
      | DErr => DErr
      | DFuel => DFuel
      end
  end.
End Loops.

(** declarator.c:793-808 type_suffix and 811-844 declarator ([abstract] = false), 322-343
    abstract_declarator. `dummy` is any type: only the position is used. *)
Fixpoint declarator (fuel : nat) (abstract : bool) (ts : list dtok) (t : dty) : dres (dty * option bytes * list dtok) :=
  match fuel with
  | O => DFuel
  | S fuel =>
      match pointers (S (length ts)) ts t with
      | DErr => DErr
      | DFuel => DFuel
      | DOk (t, ts) =>
          match ts with
          | DLPar :: start =>
              match declarator fuel abstract start (Bas voidb) with
              | DErr => DErr
              | DFuel => DFuel
              | DOk (_, _, ts) =>
                  match skip DRPar ts with
                  | None => DErr
                  | Some ts =>
                      match suffix fuel ts t with
                      | DErr => DErr
                      | DFuel => DFuel
                      | DOk (t, rest) =>
                          match declarator fuel abstract start t with
                          | DErr => DErr
                          | DFuel => DFuel
                          | DOk (t, x, _) => DOk (t, x, rest)
                          end
                      end
                  end
              end
          | _ =>
              let (x, ts) := match ts with DId x :: r => if abstract then (None, ts) else (Some x, r) | _ => (None, ts) end in
              match suffix fuel ts t with
              | DErr => DErr
              | DFuel => DFuel
              | DOk (t, rest) => DOk (t, x, rest)
              end
          end
      end
  end
with suffix (fuel : nat) (ts : list dtok) (t : dty) : dres (dty * list dtok) :=
  match fuel with
  | O => DFuel
  | S fuel =>
      match ts with
      | DLPar :: r => func_params (declarator fuel false) (S (S (length r))) r t
      | DLBrk :: r => dimension (suffix fuel) r t
      | _ => DOk (t, ts)
      end
  end.
(** A declaration's specifiers and one declarator; a type name *)
Definition parse_decl (abstract : bool) (ts : list dtok) : dres (dty * option bytes * list dtok) :=
  let (b, r) := spec ts in declarator (2 * length r + 2) abstract r b.
