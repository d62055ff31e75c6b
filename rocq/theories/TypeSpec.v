(** C11 rules about types, stated without reference to the model's functions. *)
From Verif Require Import Base TypeModel.
From Coq Require Import Sorting.Permutation.

(** ** Arithmetic types, C11 6.2.5 and the LP64 sizes of the RISC-V ABI *)
(** Integer conversion rank (6.3.1.1p1) *)
Definition rank (t : ty) : option Z :=
  match t with
  | TBool => Some 0 | TChar _ => Some 1 | TShort _ => Some 2 | TInt _ | TEnum => Some 3 | TLong _ => Some 4
  | _ => None
  end.
Definition signed (t : ty) : bool := match t with TChar u | TShort u | TInt u | TLong u => negb u | TBool => false | _ => true end.
(** Range of values, in LP64 *)
Definition bits_of (t : ty) : Z :=
  match t with TBool => 1 | TChar _ => 8 | TShort _ => 16 | TInt _ | TEnum => 32 | _ => 64 end.
Definition min_of (t : ty) : Z := if signed t then - 2 ^ (bits_of t - 1) else 0.
Definition max_of (t : ty) : Z := if signed t then 2 ^ (bits_of t - 1) - 1 else 2 ^ bits_of t - 1.
(** int, unsigned int ... of the same rank; an enumerated type is compatible with int *)
Definition to_unsigned (t : ty) : ty :=
  match t with TInt _ | TEnum => TInt true | TLong _ => TLong true | t => t end.

(** 6.3.1.1p2: if an int can represent all values of the original type, it is
    converted to int, otherwise (for ranks up to that of int) to unsigned int. *)
Definition promoted (t : ty) : ty :=
  match rank t with
  | Some r => if r <=? 3 then (if max_of t <=? max_of (TInt false) then TInt false else TInt true) else t
  | None => t
  end.

(** 6.3.1.8 *)
Definition c11_common (t1 t2 : ty) : ty :=
  if match t1, t2 with TLDouble, _ | _, TLDouble => true | _, _ => false end then TLDouble
  else if match t1, t2 with TDouble, _ | _, TDouble => true | _, _ => false end then TDouble
  else if match t1, t2 with TFloat, _ | _, TFloat => true | _, _ => false end then TFloat
  else
    let a := promoted t1 in let b := promoted t2 in
    match rank a, rank b with
    | Some ra, Some rb =>
        if Bool.eqb (signed a) (signed b) then (if rb <? ra then a else b)
        else
          let u := if signed a then b else a in let s := if signed a then a else b in
          let ru := if signed a then rb else ra in let rs := if signed a then ra else rb in
          if rs <=? ru then u
          else if max_of u <=? max_of s then s
          else to_unsigned s
    | _, _ => a
    end.

(** Same type up to the identification of an enumerated type with int *)
Definition same_arith (a b : ty) : Prop := a = b \/ (a = TEnum /\ b = TInt false) \/ (a = TInt false /\ b = TEnum).

(** ** Type specifiers, the table of C11 6.7.2p2 (without _Complex) *)
Definition c11_specifiers : list (list spec * ty) := [
  ([SVoid], TVoid);
  ([SChar], TChar false); ([SSigned; SChar], TChar false); ([SUnsigned; SChar], TChar true);
  ([SShort], TShort false); ([SSigned; SShort], TShort false); ([SShort; SInt], TShort false); ([SSigned; SShort; SInt], TShort false);
  ([SUnsigned; SShort], TShort true); ([SUnsigned; SShort; SInt], TShort true);
  ([SInt], TInt false); ([SSigned], TInt false); ([SSigned; SInt], TInt false);
  ([SUnsigned], TInt true); ([SUnsigned; SInt], TInt true);
  ([SLong], TLong false); ([SSigned; SLong], TLong false); ([SLong; SInt], TLong false); ([SSigned; SLong; SInt], TLong false);
  ([SUnsigned; SLong], TLong true); ([SUnsigned; SLong; SInt], TLong true);
  ([SLong; SLong], TLong false); ([SSigned; SLong; SLong], TLong false); ([SLong; SLong; SInt], TLong false);
  ([SSigned; SLong; SLong; SInt], TLong false);
  ([SUnsigned; SLong; SLong], TLong true); ([SUnsigned; SLong; SLong; SInt], TLong true);
  ([SFloat], TFloat); ([SDouble], TDouble); ([SLong; SDouble], TLDouble); ([SBool], TBool)].

Definition spec_eqb (a b : spec) : bool :=
  match a, b with
  | SVoid, SVoid | SBool, SBool | SChar, SChar | SShort, SShort | SInt, SInt | SLong, SLong
  | SFloat, SFloat | SDouble, SDouble | SSigned, SSigned | SUnsigned, SUnsigned => true
  | _, _ => false
  end.
Definition occurrences (s : spec) (l : list spec) : nat := List.length (filter (spec_eqb s) l).

(** ** Types as values: what a type object stands for *)
(** void, _Bool, struct, union and enum types are identified by the object that
    declared them, and so are arrays of unknown and of variable length: that last
    part is toycc's reading, not C11's, see C28_incomplete_array_refuted. *)
Inductive ctype :=
  | CNamed (k : tkind_) (id : nat)
  | CInteger (k : tkind_) (u : bool)
  | CFloat (k : tkind_)
  | CPtr (c : ctype)
  | CArr (c : ctype) (n : Z)
  | CFunc (r : ctype) (ps : list ctype) (va : bool).

(** [denotes h t c]: the object [t] stands for the type [c]. *)
Inductive denotes (h : heap) : nat -> ctype -> Prop :=
  | dn_copy t o c : k_origin (h t) = Some o -> denotes h o c -> denotes h t c
  | dn_named t k : k_origin (h t) = None -> k_kind (h t) = k -> k = KVoid \/ k = KBool \/ k = KStruct \/ k = KUnion \/ k = KEnum \/ k = KVla ->
      denotes h t (CNamed k t)
  | dn_int t k u : k_origin (h t) = None -> k_kind (h t) = k -> k = KChar \/ k = KShort \/ k = KInt \/ k = KLong ->
      k_unsigned (h t) = u -> denotes h t (CInteger k u)
  | dn_float t k : k_origin (h t) = None -> k_kind (h t) = k -> k = KFloat \/ k = KDouble \/ k = KLDouble -> denotes h t (CFloat k)
  | dn_ptr t c : k_origin (h t) = None -> k_kind (h t) = KPtr -> denotes h (k_base (h t)) c -> denotes h t (CPtr c)
  | dn_arr t c : k_origin (h t) = None -> k_kind (h t) = KArr -> 0 <= k_len (h t) -> denotes h (k_base (h t)) c ->
      denotes h t (CArr c (k_len (h t)))
  | dn_incomplete t c : k_origin (h t) = None -> k_kind (h t) = KArr -> k_len (h t) < 0 -> denotes h (k_base (h t)) c ->
      denotes h t (CNamed KArr t)
  | dn_func t r ps : k_origin (h t) = None -> k_kind (h t) = KFunc -> denotes h (k_ret (h t)) r -> denotes_all h (k_params (h t)) ps ->
      denotes h t (CFunc r ps (k_variadic (h t)))
with denotes_all (h : heap) : list nat -> list ctype -> Prop :=
  | dna_nil : denotes_all h [] []
  | dna_cons t ts c cs : denotes h t c -> denotes_all h ts cs -> denotes_all h (t :: ts) (c :: cs).
Scheme denotes_mut := Induction for denotes Sort Prop
  with denotes_all_mut := Induction for denotes_all Sort Prop.

(** ** _Generic, C11 6.5.1.1 *)
(** [l] lists the associations with the types they name; [c] is the type of the
    controlling expression. *)
Definition selected {A} (c : ctype) (l : list (option ctype * A)) (a : A) : Prop :=
  In (Some c, a) l \/ ((forall x, ~ In (Some c, x) l) /\ In (None, a) l).
(** No two associations name compatible types; there is at most one default. *)
Definition well_formed_generic {A} (l : list (option ctype * A)) : Prop := NoDup (map fst l).
(** [named h x y]: the association [x] written in the program, and the same one
    with the type its type object stands for. *)
Definition named {A} (h : heap) (x : option nat * A) (y : option ctype * A) : Prop :=
  snd x = snd y /\
  match fst x, fst y with
  | None, None => True
  | Some t, Some c => denotes h t c
  | _, _ => False
  end.

