(** Model of struct and union layout (/repo/parser/declarator.c) and of member
    lookup (/repo/parser/parser.c). *)
From Verif Require Import Base.
Local Notation length := List.length.

(** C `int` arithmetic: None is undefined behaviour (overflow, division by zero). *)
Definition chk (z : Z) : option Z := if (-2^31 <=? z) && (z <? 2^31) then Some z else None.
Notation "'do' x <- e ; k" := (match e with Some x => k | None => None end)
  (at level 200, x name, e at level 100, k at level 200, right associativity).

(** codegen.c:172-175 align_to *)
Definition align_to (n align : Z) : option Z :=
  if align =? 0 then None
  else do a <- chk (n + align - 1); chk (Z.quot a align * align).

(** declarator.c:168-171 align_down *)
Definition align_down (n align : Z) : option Z :=
  do a <- chk (n - align + 1); align_to a align.

(** struct Member (toycc.h:120-133) before layout: the size of its type, the
    alignment asked for (_Alignas or that of the type, declarator.c:38 and 60) and
    the width of a bit-field. *)
Record member := Member { m_size : Z; m_align : Z; m_width : option Z }.

(** offset and bit_offset of a laid out member; calloc leaves (0, 0) *)
Definition place := (Z * Z)%type.

(** One round of the loop at declarator.c:185-217: the next value of `bits` and the
    place of the member. *)
Definition place_member (packed : bool) (bits : Z) (m : member) : option (Z * place) :=
  do sz8 <- chk (m_size m * 8);
  match m_width m with
  | Some w =>
      if w =? 0 then
        do b <- align_to bits sz8; Some (b, (0, 0))
      else
        if sz8 =? 0 then None else
        do last <- chk (bits + w - 1);
        do b <- (if negb (Z.quot bits sz8 =? Z.quot last sz8) then align_to bits sz8 else Some bits);
        do off <- align_down (Z.quot b 8) (m_size m);
        do b' <- chk (b + w);
        Some (b', (off, Z.rem b sz8))
  | None =>
      do b <- (if negb packed then do al8 <- chk (m_align m * 8); align_to bits al8 else Some bits);
      do b' <- chk (b + sz8);
      Some (b', (Z.quot b 8, 0))
  end.

Fixpoint place_all (packed : bool) (bits al : Z) (ms : list member) : option (list place * Z * Z) :=
  match ms with
  | [] => Some ([], bits, al)
  | m :: r =>
      do x <- place_member packed bits m;
      let al' := if negb packed && (al <? m_align m) then m_align m else al in
      do y <- place_all packed (fst x) al' r;
      Some (snd x :: fst (fst y), snd (fst y), snd y)
  end.

(** declarator.c:174-222 struct_decl after the members are parsed; [al] is the
    alignment of the fresh type, 1 or that of __attribute__((aligned)). The result is
    the places, the size and the alignment. *)
Definition struct_layout (packed : bool) (al : Z) (ms : list member) : option (list place * Z * Z) :=
  do x <- place_all packed 0 al ms;
  do al8 <- chk (snd x * 8);
  do s <- align_to (snd (fst x)) al8;
  Some (fst (fst x), Z.quot s 8, snd x).

(** declarator.c:225-245 union_decl; [sz] is the size so far (0 for a fresh type).
    Every member stays at offset 0. `packed` is not looked at. *)
Definition union_step (acc : Z * Z) (m : member) : Z * Z :=
  let '(sz, al) := acc in
  (if sz <? m_size m then m_size m else sz, if al <? m_align m then m_align m else al).
Definition union_layout (sz al : Z) (ms : list member) : option (Z * Z) :=
  let '(s, a) := fold_left union_step ms (sz, al) in
  do s' <- align_to s a; Some (s', a).

(** ** Member lookup *)
(** A member as lookup sees it: its name if it has one, its offset, and the members
    of its type if that is a struct or union (None otherwise). *)
Inductive mtree := Mem (name : option bytes) (off : Z) (sub : option (list mtree)).
Definition mt_name (m : mtree) := match m with Mem n _ _ => n end.
Definition mt_off (m : mtree) := match m with Mem _ o _ => o end.

(** The outcome of get_struct_member: a member, NULL, or a NULL pointer
    dereference. *)
Inductive lookup := LFound (m : mtree) | LNone | LCrash.

(** parser.c:305-323 get_struct_member *)
Fixpoint get_member (name : bytes) (m : mtree) : lookup :=   (* one round of the loop: LFound m, or go on (LNone), or crash *)
  match m with
  | Mem n _ sub =>
      match sub, n with
      | Some ms, None =>
          (fix go l := match l with
             | [] => LNone
             | x :: r => match get_member name x with LFound _ => LFound m | LNone => go r | LCrash => LCrash end
             end) ms
      | _, Some k => if list_eq_dec Z.eq_dec k name then LFound m else LNone
      | _, None => LCrash
      end
  end.
Fixpoint get_struct_member (name : bytes) (ms : list mtree) : lookup :=
  match ms with
  | [] => LNone
  | m :: r => match get_member name m with LNone => get_struct_member name r | x => x end
  end.

(** parser.c:338-361 struct_ref: the offsets of the chain of ND_MEMBER nodes it
    builds around the struct expression (gen_addr adds them up, codegen.c:325-332).
    [None] is the error "no such member". *)
Inductive ref_result := RPath (offs : list Z) | RNoMember | RCrash | RFuel.
Fixpoint struct_ref (fuel : nat) (name : bytes) (ms : list mtree) : ref_result :=
  match fuel with
  | O => RFuel
  | S f =>
      match get_struct_member name ms with
      | LNone => RNoMember
      | LCrash => RCrash
      | LFound (Mem (Some _) o _) => RPath [o]
      | LFound (Mem None o (Some sub)) =>
          match struct_ref f name sub with RPath l => RPath (o :: l) | x => x end
      | LFound (Mem None o None) => RCrash
      end
  end.
