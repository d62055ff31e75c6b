(** Where the parts of an object lie, for the composition of C66 (which part gets which
    expression) with C36 and C56 (what becomes of an initializer). *)
From Verif Require Import Base TypeModel NodeModel InitModel ListModel ListSpec.

Fixpoint mem_at (ms : mems) (i : nat) : option (Z * option (Z * Z) * nty) :=
  match ms, i with
  | MCons _ off bf t _, O => Some (off, bf, t)
  | MCons _ _ _ _ ms, S i => mem_at ms i
  | MNil, _ => None
  end.
(** Offset, bit-field and type of the part at a path *)
Fixpoint spot (t : nty) (p : list nat) : option (Z * option (Z * Z) * ty) :=
  match p with
  | [] => Some (0, None, erase (ity_of t))
  | i :: p =>
      match t with
      | NScal _ => None
      | NArr b n => if (i <? n)%nat then match spot b p with Some (o, bf, ty) => Some (Z.of_nat i * isize (ity_of b) + o, bf, ty) | None => None end else None
      | NStruct _ _ _ ms | NUnion _ _ _ ms =>
          match mem_at ms i with
          | Some (mo, bf, mt) =>
              match p with
              | [] => Some (mo, bf, erase (ity_of mt))
              | _ => match spot mt p with Some (o, bf, ty) => Some (mo + o, bf, ty) | None => None end
              end
          | None => None
          end
      end
  end.
(** On the way to the part every union has the member last initialized; [q] leads to [t]. *)
Fixpoint live (t : nty) (ws : writes) (q p : list nat) : bool :=
  match p with
  | [] => true
  | i :: p =>
      (if union t then match last_below ws q with Some j => (j =? i)%nat | None => false end else true) &&
      match child t i with Some c => live c ws (q ++ [i]) p | None => false end
  end.
(** The bits of a part *)
Definition width (bf : option (Z * Z)) (ty : ty) : Z := match bf with Some (_, w) => w | None => 8 * size_of ty end.
Definition first_bit (o : Z) (bf : option (Z * Z)) : Z := 8 * o + match bf with Some (b, _) => b | None => 0 end.
(** Bit [k] belongs to a part that has an initializer. *)
Definition set_bit (t : nty) (ws : writes) (k : Z) : Prop :=
  exists p e o bf ty, last_at ws p = Some e /\ live t ws [] p = true /\ spot t p = Some (o, bf, ty) /\ first_bit o bf <= k < first_bit o bf + width bf ty.

(** Unions have members; no bit-fields. *)
Fixpoint inhabited (t : nty) : bool :=
  match t with NScal _ => true | NArr b _ => inhabited b | NStruct _ _ _ ms => inhabited_all ms | NUnion _ _ _ ms => negb (match ms with MNil => true | _ => false end) && inhabited_all ms end
with inhabited_all (ms : mems) : bool := match ms with MNil => true | MCons _ _ _ t ms => inhabited t && inhabited_all ms end.
Fixpoint no_bf (t : nty) : bool :=
  match t with NScal _ => true | NArr b _ => no_bf b | NStruct _ _ _ ms | NUnion _ _ _ ms => no_bf_all ms end
with no_bf_all (ms : mems) : bool := match ms with MNil => true | MCons _ _ bf t ms => match bf with None => true | Some _ => false end && no_bf t && no_bf_all ms end.
