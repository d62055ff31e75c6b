(** The meaning of source expressions with float and double in them, with the rules of C11
    (6.3.1.4, 6.3.1.5, 6.3.1.8, 6.5): type, value, effect on memory. As ElabSpec, which says
    what the parts without floating point mean; only the syntax [cexpr], the type trees and
    the vocabulary of ElabSpec and FloatSpec are used. *)
From Verif Require Import Base TypeModel IntArith NodeModel ValSpec ElabSpec NodeSpec FpSpec FloatSpec.

(** The format two arithmetic operands are converted to if one is floating *)
Definition arith_ty (t : ty) : bool := is_arith t || match fmt_of t with Some _ => true | None => false end.
Definition common_fmt (a b : ty) : option fmt :=
  if arith_ty a && arith_ty b
  then match fmt_of a, fmt_of b with
       | Some B64, _ | _, Some B64 => Some B64
       | Some B32, _ | _, Some B32 => Some B32
       | None, None => None
       end
  else None.
Definition fmt_ty (f : fmt) : ty := match f with B32 => TFloat | B64 => TDouble end.
Definition scalar_ty (t : ty) : bool := scalar t || match fmt_of t with Some _ => true | None => false end.
(** The operators a floating operand may have *)
Definition fsop (o : sop) : option (bop * bool) :=            (* the comparison with swapped operands? *)
  match o with
  | SAdd => Some (Add, false) | SSub => Some (Sub, false) | SMul => Some (Mul, false) | SDiv => Some (Div, false)
  | SEq => Some (Eq, false) | SNe => Some (Ne, false) | SLt => Some (Lt, false) | SLe => Some (Le, false)
  | SGt => Some (Lt, true) | SGe => Some (Le, true)
  | _ => None
  end.
Definition compares (o : sop) : bool := match o with SEq | SNe | SLt | SLe | SGt | SGe => true | _ => false end.
Definition shifts (o : sop) : bool := match o with SShl | SShr => true | _ => false end.
Definition is_pointer (t : ty) : bool := match t with TPtr _ => true | _ => false end.
(** The type of [a op b] and of [c ? a : b]; two integers are promoted (not here: shifts of
    narrow operands, see [plain] in ElabSpec) *)
Definition gop_type (o : sop) (ta tb : ty) : option ty :=
  match common_fmt ta tb with
  | Some f => let* _ := fsop o in Some (if compares o then int_t else fmt_ty f)
  | None => if is_arith ta && is_arith tb && (negb (shifts o) || (4 <=? size_of ta)) then bin_type o (promote ta) (promote tb)
            else if is_pointer ta && is_pointer tb && compares o then Some int_t else None
  end.
Definition gcond_type (ta tb : ty) : option ty :=
  match common_fmt ta tb with
  | Some f => Some (fmt_ty f)
  | None =>
      if is_arith ta && is_arith tb then Some (usual (promote ta) (promote tb))
      else match ta, tb with TPtr b, TPtr _ => Some (TPtr b) | _, _ => None end
  end.
(** The type of [+a], [-a] and, for integers only, [~a].  Narrow operands of + and ~ are not
    here (see [plain] in ElabSpec). *)
Definition gun_type (narrow : bool) (t : ty) : option ty :=
  match fmt_of t with
  | Some _ => Some t
  | None => if is_arith t && (narrow || (4 <=? size_of t)) then Some (promote t) else None
  end.
(** Bit-fields have promotions of their own (6.3.1.1p2), which do not matter beside a floating
    operand: not here otherwise *)
Definition no_bits (e : cexpr) : bool := match bits_of e with None => true | Some _ => false end.
Definition operands (a b : cexpr) (ta tb : ty) : bool :=
  match common_fmt ta tb with Some _ => true | None => no_bits a && no_bits b end.

(** No part has a floating type, and there are no calls *)
Fixpoint int_src (e : cexpr) : bool :=
  match e with
  | CNum t _ | CVar _ t => negb (is_float t)
  | CCast t a => negb (is_float t) && int_src a
  | CDeref a => negb (is_float (ty_of e)) && int_src a
  | CIndex a b => negb (is_float (ty_of e)) && int_src a && int_src b
  | CDot a m | CArrow a m => negb (is_float (m_ty m)) && int_src a
  | CPlus a | CNeg a | CNot a | CBitNot a | CPreInc a | CPreDec a | CPostInc a | CPostDec a | CAddr a => int_src a
  | CBin _ a b | CAnd a b | COr a b | CElvis a b | CComma a b | CAssign a b | COpAssign _ a b => int_src a && int_src b
  | CCond c a b => int_src c && int_src a && int_src b
  | CCall _ _ _ _ => false
  end.
(** An object of type float or double, found without floating point *)
Definition float_obj (e : cexpr) : bool :=
  match fmt_of (ty_of e) with Some _ => true | None => false end && plain e &&
  match e with
  | CVar _ _ => true
  | CDeref a => int_src a
  | CIndex a b => int_src a && int_src b
  | CDot a m => is_lval a && int_src a && match m_bf m with None => true | Some _ => false end
  | CArrow a m => int_src a && match m_bf m with None => true | Some _ => false end
  | _ => false
  end.
(** ... of an integer type, not a bit-field *)
Definition int_obj (e : cexpr) : bool :=
  plain e && int_src e && is_lval e && match bits_of e with None => true | Some _ => false end && is_arith (ty_of e).
Definition operand (a : cexpr) (t : ty) : bool := match fmt_of t with Some _ => true | None => no_bits a end.

(** ... of a pointer type *)
Definition ptr_obj (e : cexpr) : bool := plain e && int_src e && is_lval e && no_bits e && is_pointer (ty_of e).

(** Casts: to void from anything; between arithmetic types; between pointers, and between
    pointers and integers (6.5.4p4 forbids pointers and floating types) *)
Definition gcast_ok (t s : ty) : bool :=
  match t with
  | TVoid => true
  | _ => arith_ty t && arith_ty s || is_pointer t && (is_pointer s || is_arith s) || is_arith t && is_pointer s
  end.

(** ** Types *)
Fixpoint gtype (e : cexpr) : option ty :=
  if int_src e then (if plain e then ctype e else None)
  else match e with
  | CNum t _ => let* _ := fmt_of t in Some t
  | CVar _ _ | CDeref _ | CIndex _ _ | CDot _ _ | CArrow _ _ => if float_obj e then ctype e else None
  | CPlus a => let* t := gtype a in if operand a t then gun_type false t else None
  | CNeg a => let* t := gtype a in if operand a t then gun_type true t else None
  | CBitNot a => let* t := gtype a in if is_arith t && operand a t then gun_type false t else None
  | CNot a => let* t := gtype a in if scalar_ty t then Some int_t else None
  | CBin o a b =>
      let* ta := gtype a in let* tb := gtype b in if operands a b ta tb then gop_type o ta tb else None
  | CAnd a b | COr a b => let* ta := gtype a in let* tb := gtype b in if scalar_ty ta && scalar_ty tb then Some int_t else None
  | CCond c a b =>
      let* tc := gtype c in let* ta := gtype a in let* tb := gtype b in
      if scalar_ty tc && operands a b ta tb then gcond_type ta tb else None
  | CComma a b => let* _ := gtype a in gtype b
  | CCast t a => let* ta := gtype a in if gcast_ok t ta then Some t else None
  | CAssign l r =>
      let* tr := gtype r in
      if (float_obj l || int_obj l) && arith_ty tr || ptr_obj l && is_pointer tr then ctype l else None
  | COpAssign o l r =>
      let* tr := gtype r in let* tl := (if float_obj l || int_obj l then ctype l else None) in
      if compares o || negb (operands l r tl tr) then None else let* _ := gop_type o tl tr in Some tl
  | CPreInc l | CPreDec l => if float_obj l then ctype l else None
  | CAddr l => if float_obj l then let* t := ctype l in Some (TPtr t) else None
  | _ => None
  end.
Definition gty (e : cexpr) : ty := match gtype e with Some t => t | None => TVoid end.

Section Values.
Variable addr : var -> Z.
Variable valid : Z -> bool.
(** There are no calls. *)
Definition no_call : Z -> list ty -> ty -> list Z -> mem -> option (Z * mem) := fun _ _ _ _ _ => None.
(** [x op y], both converted to the common format; for two integers and two pointers, as in ElabSpec *)
Definition gop (o : sop) (ta tb : ty) (x y : Z) : option Z :=
  match common_fmt ta tb with
  | Some f =>
      let* (o, sw) := fsop o in
      let* x := fcast ta (fmt_ty f) x in let* y := fcast tb (fmt_ty f) y in
      if sw then fbin_val o f y x else fbin_val o f x y
  | None =>
      if is_pointer ta && is_pointer tb
      then let* x := conv (TPtr TVoid) x in let* y := conv (TPtr TVoid) y in bin_op o ta tb x y
      else bin_op o (promote ta) (promote tb) x y
  end.
(** The order of evaluation is unspecified in C11; it is the one of ElabSpec. *)
Fixpoint gev (e : cexpr) (m : mem) {struct e} : option (Z * mem) :=
  let modify l o t (r : option (Z * mem)) (a : Z) :=
    let* (y, m) := r in
    let* x := fload valid (ty_of l) m a in
    let* z := gop o (ty_of l) t x y in
    let* u := gop_type o (ty_of l) t in
    let* z := fcast u (ty_of l) z in
    let* m := fstore valid (ty_of l) m a z in Some (z, m) in
  if int_src e then cev addr valid no_call false e m
  else match e with
  | CNum t v => let* f := fmt_of t in if fval f v then Some (v, m) else None
  | CVar _ _ | CDeref _ | CIndex _ _ | CDot _ _ | CArrow _ _ =>
      let* (a, m) := cev addr valid no_call true e m in let* v := fload valid (ty_of e) m a in Some (v, m)
  | CPlus a => gev a m
  | CNeg a => let* (x, m) := gev a m in 
      match fmt_of (gty a) with
      | Some f => Some (fneg f x, m)
      | None => let* x := conv (gty e) x in let* v := neg_val (gty e) x in Some (v, m)
      end
  | CBitNot a => let* (x, m) := gev a m in let* v := bitnot_val (gty e) x in Some (v, m)
  | CNot a => let* (x, m) := gev a m in let* b := ftruth (gty a) x in Some (b2z (negb b), m)
  | CBin o a b =>
      let* (x, y, m) := bin_order (match fsop o with Some (_, true) => false | _ => true end) (gev a) (gev b) m in
      let* v := gop o (gty a) (gty b) x y in Some (v, m)
  | CAnd a b =>
      let* (x, m) := gev a m in let* x := ftruth (gty a) x in
      if x then let* (y, m) := gev b m in let* y := ftruth (gty b) y in Some (b2z y, m) else Some (0, m)
  | COr a b =>
      let* (x, m) := gev a m in let* x := ftruth (gty a) x in
      if x then Some (1, m) else let* (y, m) := gev b m in let* y := ftruth (gty b) y in Some (b2z y, m)
  | CCond c a b =>
      let* (x, m) := gev c m in let* x := ftruth (gty c) x in
      if x then let* (v, m) := gev a m in let* v := fcast (gty a) (gty e) v in Some (v, m)
      else let* (v, m) := gev b m in let* v := fcast (gty b) (gty e) v in Some (v, m)
  | CComma a b => let* (_, m) := gev a m in gev b m
  | CCast t a => let* (x, m) := gev a m in let* v := fcast (gty a) t x in Some (v, m)
  | CAssign l r =>
      let* (a, m) := cev addr valid no_call true l m in let* (v, m) := gev r m in
      let* v := fcast (gty r) (ty_of l) v in let* m := fstore valid (ty_of l) m a v in Some (v, m)
  | COpAssign o l r => let* (a, m) := cev addr valid no_call true l m in modify l o (gty r) (gev r m) a
  | CAddr l => cev addr valid no_call true l m
  | CPreInc l => let* (a, m) := cev addr valid no_call true l m in modify l SAdd int_t (Some (1, m)) a
  | CPreDec l => let* (a, m) := cev addr valid no_call true l m in modify l SSub int_t (Some (1, m)) a
  | _ => None
  end.
End Values.
