(** What a struct layout must satisfy, in terms of bit positions. *)
From Verif Require Import Base LayoutModel.

(** Members a C program can declare: a type has a non-negative size, an alignment is
    positive, a bit-field is no wider than its type. *)
Definition member_ok (m : member) : Prop :=
  0 <= m_size m /\ 1 <= m_align m /\
  match m_width m with
  | Some w => 0 < m_size m /\ 0 <= w <= 8 * m_size m
  | None => True
  end.
Definition ordinary (m : member) : Prop := m_width m = None.

(** The bits a member occupies, counted from the start of the struct. *)
Definition first_bit (p : place) : Z := 8 * fst p + snd p.
Definition bit_count (m : member) : Z := match m_width m with Some w => w | None => 8 * m_size m end.
Definition end_bit (m : member) (p : place) : Z := first_bit p + bit_count m.
(** A zero width bit-field occupies nothing and has no place. *)
Definition occupies (m : member) : Prop := m_width m <> Some 0.

Definition power_of_two (n : Z) : Prop := exists k, 0 <= k /\ n = 2 ^ k.

(** Visible members of an aggregate, C11 6.7.2.1p13: those of an unnamed struct or
    union member belong to the containing one. In declaration order, with the
    offset from the start of the outermost aggregate. *)
Fixpoint visible_of (base : Z) (m : mtree) : list (bytes * Z) :=
  match m with
  | Mem (Some n) o _ => [(n, base + o)]
  | Mem None o (Some sub) => flat_map (visible_of (base + o)) sub
  | Mem None _ None => []
  end.
Definition visible (ms : list mtree) : list (bytes * Z) := flat_map (visible_of 0) ms.

(** No unnamed member but structs and unions (that is, no unnamed bit-field) *)
Inductive all_named : mtree -> Prop :=
  | an_named n o sub : all_named (Mem (Some n) o sub)
  | an_anon o sub : Forall all_named sub -> all_named (Mem None o (Some sub)).

Definition first_visible (name : bytes) (l : list (bytes * Z)) : option Z :=
  match find (fun e => if list_eq_dec Z.eq_dec (fst e) name then true else false) l with
  | Some e => Some (snd e)
  | None => None
  end.

(** Sum of the sizes; a bound, in bits, on what a member adds to the layout *)
Fixpoint total (ms : list member) : Z := match ms with [] => 0 | m :: r => m_size m + total r end.
Definition budget (m : member) : Z := 16 * m_size m + 8 * m_align m.
Fixpoint budgets (ms : list member) : Z := match ms with [] => 0 | m :: r => budget m + budgets r end.
Fixpoint sum (l : list Z) : Z := match l with [] => 0 | x :: r => x + sum r end.
