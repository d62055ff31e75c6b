(** Model of the type system: /repo/type.c, the type specifiers of
    /repo/parser/declarator.c and _Generic of /repo/parser/parser.c. *)
From Verif Require Import Base.
Local Notation length := List.length.

(** ** Types *)
(** struct Type (type.h:4-38) as a tree. [u] is is_unsigned. A struct or union is
    given by an identity (the object pushed for its tag), its size and its
    alignment; the size of an incomplete one is -1. The parameters of a function
    type are not part of this tree (see [heap] below), qualifiers do not exist
    in the C code either. *)
Inductive ty :=
  | TVoid | TBool
  | TChar (u : bool) | TShort (u : bool) | TInt (u : bool) | TLong (u : bool)
  | TFloat | TDouble | TLDouble
  | TEnum
  | TPtr (b : ty)
  | TFunc (ret : ty)
  | TArr (b : ty) (n : Z)
  | TVla (b : ty)
  | TStruct (id : nat) (sz al : Z)
  | TUnion (id : nat) (sz al : Z).

(** type.c:4-71 the basic types, 245-291 the constructors *)
Fixpoint size_of (t : ty) : Z :=
  match t with
  | TVoid | TBool | TChar _ => 1
  | TShort _ => 2
  | TInt _ | TFloat | TEnum => 4
  | TLong _ | TDouble | TPtr _ | TVla _ => 8
  | TLDouble => 16
  | TFunc _ => 1
  | TArr b n => size_of b * n
  | TStruct _ s _ | TUnion _ s _ => s
  end.
Fixpoint align_of (t : ty) : Z :=
  match t with
  | TArr b _ => align_of b
  | TStruct _ _ a | TUnion _ _ a => a
  | t => size_of t
  end.
Definition is_unsigned (t : ty) : bool :=
  match t with TChar u | TShort u | TInt u | TLong u => u | TPtr _ => true | _ => false end.
(** the member `base` *)
Definition base_of (t : ty) : option ty :=
  match t with TPtr b | TArr b _ | TVla b => Some b | _ => None end.

(** type.c:143-181 *)
Definition is_integer (t : ty) : bool :=
  match t with TBool | TChar _ | TShort _ | TInt _ | TLong _ | TEnum => true | _ => false end.
Definition is_float (t : ty) : bool := match t with TFloat | TDouble | TLDouble => true | _ => false end.
Definition is_numeric (t : ty) : bool := is_integer t || is_float t.

(** type.c:293-323 get_common_type *)
Definition get_common_type (ty1 ty2 : ty) : ty :=
  match base_of ty1 with
  | Some b => TPtr b
  | None =>
      match ty1, ty2 with
      | TFunc _, _ => TPtr ty1
      | _, TFunc _ => TPtr ty2
      | TLDouble, _ | _, TLDouble => TLDouble
      | TDouble, _ | _, TDouble => TDouble
      | TFloat, _ | _, TFloat => TFloat
      | _, _ =>
          let t1 := if size_of ty1 <? 4 then TInt false else ty1 in
          let t2 := if size_of ty2 <? 4 then TInt false else ty2 in
          if negb (size_of t1 =? size_of t2) then (if size_of t1 <? size_of t2 then t2 else t1)
          else if is_unsigned t2 then t2 else t1
      end
  end.

(** ** Type specifiers, declarator.c:446-663 *)
(** The words of the built-in types; a struct, union, enum, typeof or typedef
    name is [SOther]. *)
Inductive spec := SVoid | SBool | SChar | SShort | SInt | SLong | SFloat | SDouble | SSigned | SUnsigned.

(** declarator.c:453-465 *)
Definition weight (s : spec) : Z :=
  match s with
  | SVoid => 1 | SBool => 2^2 | SChar => 2^4 | SShort => 2^6 | SInt => 2^8 | SLong => 2^10
  | SFloat => 2^12 | SDouble => 2^14 | SSigned => 2^17 | SUnsigned => 2^18
  end.

(** declarator.c:567-588: counter += ... or counter |= ... *)
Definition count (counter : Z) (s : spec) : Z :=
  match s with
  | SSigned | SUnsigned => Z.lor counter (weight s)
  | _ => counter + weight s
  end.

(** declarator.c:590-651: None is the error "invalid type" *)
Definition counter_type (c : Z) : option ty :=
  let is l := existsb (fun ws => fold_right (fun s a => weight s + a) 0 ws =? c) l in
  if is [[SVoid]] then Some TVoid
  else if is [[SBool]] then Some TBool
  else if is [[SChar]; [SSigned; SChar]] then Some (TChar false)
  else if is [[SUnsigned; SChar]] then Some (TChar true)
  else if is [[SShort]; [SShort; SInt]; [SSigned; SShort]; [SSigned; SShort; SInt]] then Some (TShort false)
  else if is [[SUnsigned; SShort]; [SUnsigned; SShort; SInt]] then Some (TShort true)
  else if is [[SInt]; [SSigned]; [SSigned; SInt]] then Some (TInt false)
  else if is [[SUnsigned]; [SUnsigned; SInt]] then Some (TInt true)
  else if is [[SLong]; [SLong; SInt]; [SLong; SLong]; [SLong; SLong; SInt]; [SSigned; SLong]; [SSigned; SLong; SInt];
              [SSigned; SLong; SLong]; [SSigned; SLong; SLong; SInt]] then Some (TLong false)
  else if is [[SUnsigned; SLong]; [SUnsigned; SLong; SInt]; [SUnsigned; SLong; SLong]; [SUnsigned; SLong; SLong; SInt]] then Some (TLong true)
  else if is [[SFloat]] then Some TFloat
  else if is [[SDouble]] then Some TDouble
  else if is [[SLong; SDouble]] then Some TLDouble
  else None.

(** The loop over a list of built-in type words, from counter [c] and type [t].
    The other words of declspec (storage classes, qualifiers, _Alignas) do not
    touch the counter. *)
Fixpoint declspec_loop (c : Z) (t : ty) (ws : list spec) : option ty :=
  match ws with
  | [] => Some t
  | w :: r =>
      match counter_type (count c w) with
      | None => None
      | Some t' => declspec_loop (count c w) t' r
      end
  end.
Definition declspec (ws : list spec) : option ty := declspec_loop 0 (TInt false) ws.

(** ** Compatibility, type.c:183-240 *)
(** Types as objects in memory: [is_compatible] looks at identities and at the
    `origin` chain that copy_type builds. *)
Inductive tkind_ := KVoid | KBool | KChar | KShort | KInt | KLong | KFloat | KDouble | KLDouble | KEnum | KPtr | KFunc | KArr | KVla | KStruct | KUnion.
Definition tkind_eqb (a b : tkind_) : bool :=
  match a, b with
  | KVoid, KVoid | KBool, KBool | KChar, KChar | KShort, KShort | KInt, KInt | KLong, KLong | KFloat, KFloat
  | KDouble, KDouble | KLDouble, KLDouble | KEnum, KEnum | KPtr, KPtr | KFunc, KFunc | KArr, KArr | KVla, KVla
  | KStruct, KStruct | KUnion, KUnion => true
  | _, _ => false
  end.
Record tobj := TObj {
  k_kind : tkind_;
  k_unsigned : bool;
  k_origin : option nat;
  k_base : nat;               (* KPtr, KArr *)
  k_len : Z;                  (* KArr *)
  k_ret : nat;                (* KFunc *)
  k_params : list nat;
  k_variadic : bool;
}.
Definition heap := nat -> tobj.

Fixpoint all2 (f : nat -> nat -> option bool) (a b : list nat) : option bool :=
  match a, b with
  | [], [] => Some true
  | x :: a', y :: b' =>
      match f x y with
      | Some true => all2 f a' b'
      | r => r
      end
  | _, _ => Some false
  end.

(** None: the recursion bound of the model was too small *)
Fixpoint is_compatible (fuel : nat) (h : heap) (t1 t2 : nat) : option bool :=
  match fuel with
  | O => None
  | S f =>
      if (t1 =? t2)%nat then Some true
      else
        match k_origin (h t1) with
        | Some o => is_compatible f h o t2
        | None =>
            match k_origin (h t2) with
            | Some o => is_compatible f h t1 o
            | None =>
                let a := h t1 in let b := h t2 in
                if negb (tkind_eqb (k_kind a) (k_kind b)) then Some false
                else
                  match k_kind a with
                  | KChar | KShort | KInt | KLong => Some (Bool.eqb (k_unsigned a) (k_unsigned b))
                  | KFloat | KDouble | KLDouble => Some true
                  | KPtr => is_compatible f h (k_base a) (k_base b)
                  | KFunc =>
                      match is_compatible f h (k_ret a) (k_ret b) with
                      | Some true =>
                          if negb (Bool.eqb (k_variadic a) (k_variadic b)) then Some false
                          else all2 (is_compatible f h) (k_params a) (k_params b)
                      | r => r
                      end
                  | KArr =>
                      match is_compatible f h (k_base a) (k_base b) with
                      | Some true => Some ((0 <=? k_len a) && (0 <=? k_len b) && (k_len a =? k_len b))
                      | r => r
                      end
                  | _ => Some false
                  end
            end
        end
  end.

(** ** _Generic, parser.c:86-126 *)
(** An association is a type and an expression, or `default` ([None]) and an
    expression. [t1] is the (decayed, parser.c:95-99) type of the controlling
    expression, [ret] the choice so far. The outer option is the recursion bound
    of [is_compatible]; an inner None is the error at parser.c:121-123. *)
Fixpoint generic_loop {A} (fuel : nat) (h : heap) (t1 : nat) (ret : option A) (l : list (option nat * A)) : option (option A) :=
  match l with
  | [] => Some ret
  | (None, a) :: r => generic_loop fuel h t1 (match ret with None => Some a | _ => ret end) r
  | (Some t2, a) :: r =>
      match is_compatible fuel h t1 t2 with
      | None => None
      | Some true => generic_loop fuel h t1 (Some a) r
      | Some false => generic_loop fuel h t1 ret r
      end
  end.
Definition generic_selection {A} (fuel : nat) (h : heap) (t1 : nat) (l : list (option nat * A)) : option (option A) :=
  generic_loop fuel h t1 None l.
