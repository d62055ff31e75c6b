(** Values, memory and arithmetic of C11 on the LP64 RISC-V target: the shared
    vocabulary of the specifications of expressions. Independent of /repo except
    for the type trees of [TypeModel.ty] and the operator names of [NodeModel]. *)
From Verif Require Import Base TypeModel IntArith NodeModel.

(** ** Scalar types other than floating point: signed or not, width *)
Definition int_repr (t : ty) : option (bool * Z) :=
  match t with
  | TBool => Some (false, 1)
  | TChar u => Some (negb u, 8)
  | TShort u => Some (negb u, 16)
  | TInt u => Some (negb u, 32)
  | TEnum => Some (true, 32)
  | TLong u => Some (negb u, 64)
  | TPtr _ => Some (false, 64)
  | _ => None
  end.
Definition in_range (s : bool) (n z : Z) : bool :=
  if s then (- 2 ^ (n - 1) <=? z) && (z <? 2 ^ (n - 1)) else (0 <=? z) && (z <? 2 ^ n).
(** [z] is a value of type [t] *)
Definition val_of (t : ty) (z : Z) : bool :=
  match int_repr t with Some (s, n) => in_range s n z | None => false end.

(** A structure, union, array or function is denoted by its address. *)
Definition is_aggregate (t : ty) : bool :=
  match t with TArr _ _ | TVla _ | TStruct _ _ _ | TUnion _ _ _ | TFunc _ => true | _ => false end.

(** Conversion, C11 6.3.1.2, 6.3.1.3, 6.3.2.3 (narrowing to a signed type wraps).
    None: not a conversion between the types considered here. *)
Definition conv (t : ty) (z : Z) : option Z :=
  match t with
  | TVoid => Some 0
  | TBool => Some (if z =? 0 then 0 else 1)
  | TStruct _ _ _ | TUnion _ _ _ => Some z
  | _ => match int_repr t with
         | Some (s, n) => Some (if s then sx n z else z mod 2 ^ n)
         | None => None
         end
  end.

(** The result [z] of an arithmetic operation of type [t]: overflow of a signed
    type is undefined, unsigned types wrap (C11 6.5p5, 6.2.5p9). *)
Definition fit (t : ty) (z : Z) : option Z :=
  match int_repr t with
  | Some (true, n) => if in_range true n z then Some z else None
  | Some (false, n) => Some (z mod 2 ^ n)
  | None => None
  end.

Definition b2z (b : bool) : Z := if b then 1 else 0.
(** [t] is the type of the operands (for a shift: of the left operand, and the
    type of the result). C11 6.5.5-6.5.12; shifting a negative value right is
    arithmetic. *)
Definition bin_val (o : bop) (t : ty) (x y : Z) : option Z :=
  match o with
  | Add => fit t (x + y)
  | Sub => fit t (x - y)
  | Mul => fit t (x * y)
  | Div => if y =? 0 then None else fit t (Z.quot x y)
  | Mod => if y =? 0 then None else match fit t (Z.quot x y) with Some _ => fit t (Z.rem x y) | None => None end
  | And => fit t (Z.land x y)
  | Or => fit t (Z.lor x y)
  | Xor => fit t (Z.lxor x y)
  | Eq => Some (b2z (x =? y))
  | Ne => Some (b2z (negb (x =? y)))
  | Lt => Some (b2z (x <? y))
  | Le => Some (b2z (x <=? y))
  | Shl =>
      match int_repr t with
      | Some (s, n) => if (0 <=? y) && (y <? n) && (negb s || (0 <=? x)) then fit t (x * 2 ^ y) else None
      | None => None
      end
  | Shr =>
      match int_repr t with
      | Some (s, n) => if (0 <=? y) && (y <? n) then fit t (x / 2 ^ y) else None
      | None => None
      end
  end.
Definition neg_val (t : ty) (x : Z) : option Z := fit t (- x).
Definition bitnot_val (t : ty) (x : Z) : option Z := fit t (Z.lnot x).
Definition truth (x : Z) : bool := negb (x =? 0).

(** ** Memory: a byte for every address *)
Definition mem := Z -> Z.
(** [n] bytes at [a], least significant first *)
Fixpoint le_load (m : mem) (a : Z) (n : nat) : Z :=
  match n with O => 0 | S k => m a mod 256 + 256 * le_load m (a + 1) k end.
Definition le_store (m : mem) (a : Z) (n : Z) (v : Z) : mem :=
  fun x => if (a <=? x) && (x <? a + n) then (v / 256 ^ (x - a)) mod 256 else m x.
Definition copy_bytes (m : mem) (src dst n : Z) : mem :=
  fun x => if (dst <=? x) && (x <? dst + n) then m (src + (x - dst)) mod 256 else m x.

(** The object of type [t] whose bytes are the number [z] *)
Definition of_bytes (t : ty) (z : Z) : option Z :=
  match t with
  | TBool => if z <? 2 then Some z else None        (* a trap representation *)
  | _ => match int_repr t with Some (s, n) => Some (if s then sx n z else z mod 2 ^ n) | None => None end
  end.

Section Mem.
(** The addresses the program may use *)
Variable valid : Z -> bool.

Definition accessible (a n : Z) : bool :=
  (0 <=? a) && (a + n <=? 2 ^ 64) && forallb (fun i => valid (a + Z.of_nat i)) (seq 0 (Z.to_nat n)).

(** The value of an object of type [t] at [a] (an aggregate is its address) *)
Definition load_val (t : ty) (m : mem) (a : Z) : option Z :=
  if is_aggregate t then Some a
  else if accessible a (size_of t) then of_bytes t (le_load m a (Z.to_nat (size_of t))) else None.

(** Storing the value [v] of type [t] at [a] *)
Definition store_val (t : ty) (m : mem) (a v : Z) : option mem :=
  match t with
  | TStruct _ n _ | TUnion _ n _ =>
      if accessible v n && accessible a n && ((a =? v) || (a + n <=? v) || (v + n <=? a)) then Some (copy_bytes m v a n) else None
  | _ =>
      match int_repr t with
      | Some _ => if accessible a (size_of t) then Some (le_store m a (size_of t) v) else None
      | None => None
      end
  end.

(** A bit-field of [w] bits at bit [o] of the object of type [t] at [a] (6.7.2.1p10):
    a signed field is two's complement, _Bool and unsigned fields are not signed. *)
Definition bf_signed (t : ty) : bool := match int_repr t with Some (s, _) => s | None => false end.
Definition bf_get (t : ty) (o w z : Z) : Z :=
  let f := z / 2 ^ o mod 2 ^ w in if bf_signed t then sx w f else f.
Definition bf_put (o w z v : Z) : Z := z - (z / 2 ^ o mod 2 ^ w) * 2 ^ o + (v mod 2 ^ w) * 2 ^ o.
Definition load_bf (t : ty) (o w : Z) (m : mem) (a : Z) : option Z :=
  if accessible a (size_of t) then Some (bf_get t o w (le_load m a (Z.to_nat (size_of t)))) else None.
Definition store_bf (t : ty) (o w : Z) (m : mem) (a v : Z) : option mem :=
  if accessible a (size_of t) then Some (le_store m a (size_of t) (bf_put o w (le_load m a (Z.to_nat (size_of t))) v)) else None.
End Mem.
