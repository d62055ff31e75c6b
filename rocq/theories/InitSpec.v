(** What an initializer means (C11 6.7.9): the scalar parts it gives a value, with their
    place in the object. *)
From Verif Require Import Base TypeModel IntArith NodeModel ValSpec EvalModel ElabSpec InitModel.

(** A part of the object: offset, bit-field (offset in its unit, width), type, and the
    expression that gives its value *)
Record elem := Elem { el_off : Z; el_bf : option (Z * Z); el_ty : ty; el_expr : node }.
Definition el_lo (e : elem) : Z := 8 * el_off e + match el_bf e with Some (o, _) => o | None => 0 end.      (* its first bit *)
Definition el_width (e : elem) : Z := match el_bf e with Some (_, w) => w | None => 8 * size_of (el_ty e) end.
Definition el_has (e : elem) (p : Z) : Prop := el_lo e <= p < el_lo e + el_width e.

(** The elements of an array one after the other; the members of a struct at their
    offsets; of a union the one member that is chosen; a struct may have an expression for
    the whole. *)
Fixpoint elements (t : ity) (i : init) (off : Z) {struct t} : list elem :=
  match t with
  | IScal ty => match i_expr i with Some e => [Elem off None ty e] | None => [] end
  | IArr b n =>
      (fix arr (k : nat) (cs : list init) (o : Z) : list elem :=
         match k, cs with S k, c :: r => elements b c o ++ arr k r (o + isize b) | _, _ => [] end) n (i_kids i) off
  | IStruct _ _ _ ms =>
      match i_expr i with
      | Some e => [Elem off None (erase t) e]
      | None =>
          (fix mems (ms : list (Z * option (Z * Z) * ity)) (cs : list init) : list elem :=
             match ms, cs with
             | (mo, Some bf, mt) :: ms, c :: cs => match i_expr c with Some e => [Elem (off + mo) (Some bf) (erase mt) e] | None => [] end ++ mems ms cs
             | (mo, None, mt) :: ms, c :: cs => elements mt c (off + mo) ++ mems ms cs
             | _, _ => []
             end) ms (i_kids i)
      end
  | IUnion _ _ _ ms =>
      match i_mem i with
      | None => []
      | Some k =>
          (fix pick (ms : list (Z * option (Z * Z) * ity)) (cs : list init) (k : nat) : list elem :=
             match ms, cs, k with
             | (mo, Some bf, mt) :: _, c :: _, O => match i_expr c with Some e => [Elem (off + mo) (Some bf) (erase mt) e] | None => [] end
             | (mo, None, mt) :: _, c :: _, O => elements mt c (off + mo)
             | _ :: ms, _ :: cs, S k => pick ms cs k
             | _, _, _ => []
             end) ms (i_kids i) k
      end
  end.

(** ** Types and initializers as the parser builds them *)
Fixpoint blank (i : init) : bool := match i with Init None None cs => forallb blank cs | _ => false end.
(** One child for every element or member *)
Fixpoint shaped (t : ity) (i : init) {struct t} : bool :=
  match t with
  | IScal _ => true
  | IArr b n => Nat.eqb (List.length (i_kids i)) n && forallb (shaped b) (i_kids i)
  | IStruct _ _ _ ms =>
      (fix mems (ms : list (Z * option (Z * Z) * ity)) (cs : list init) : bool :=
         match ms, cs with [], [] => true | (_, _, mt) :: ms, c :: cs => shaped mt c && mems ms cs | _, _ => false end) ms (i_kids i)
  | IUnion _ _ _ ms =>
      (fix mems (ms : list (Z * option (Z * Z) * ity)) (cs : list init) : bool :=
         match ms, cs with [], [] => true | (_, _, mt) :: ms, c :: cs => shaped mt c && mems ms cs | _, _ => false end) ms (i_kids i)
      && match i_mem i with Some k => Nat.ltb k (List.length ms) | None => negb (match ms with [] => true | _ => false end) && forallb blank (i_kids i) end
  end.
(** The members of a struct follow each other without overlap, those of a union start at 0;
    all lie inside; bit-fields inside their unit. *)
Definition m_lo (m : Z * option (Z * Z) * ity) : Z := let '(mo, bf, mt) := m in 8 * mo + match bf with Some (o, _) => o | None => 0 end.
Definition m_hi (m : Z * option (Z * Z) * ity) : Z := let '(mo, bf, mt) := m in 8 * mo + match bf with Some (o, w) => o + w | None => 8 * isize mt end.
Fixpoint laid (pos hi : Z) (ms : list (Z * option (Z * Z) * ity)) : bool :=
  match ms with [] => pos <=? hi | m :: r => (pos <=? m_lo m) && (m_lo m <=? m_hi m) && laid (m_hi m) hi r end.
Definition bf_member (sz : Z) (m : Z * option (Z * Z) * ity) : bool :=
  let '(mo, bf, mt) := m in
  (0 <=? mo) && (mo + isize mt <=? sz) &&
  match bf with
  | None => true
  | Some (o, w) => match mt with IScal t => bf_fits t bf | _ => false end
  end.
Fixpoint wf (t : ity) : bool :=
  match t with
  | IScal t => scalar t
  | IArr b n => wf b
  | IStruct _ sz _ ms => (0 <=? sz) && forallb (fun m => wf (snd m)) ms && forallb (bf_member sz) ms && laid 0 (8 * sz) ms
  | IUnion _ sz _ ms => (0 <=? sz) && forallb (fun m => wf (snd m)) ms && forallb (bf_member sz) ms && forallb (fun m => fst (fst m) =? 0) ms
  end.

(** Sizes are ints *)
Fixpoint modest (t : ity) : bool :=
  match t with
  | IScal _ => true
  | IArr b n => modest b && (isize b <? 2 ^ 31) && (Z.of_nat n <? 2 ^ 31)
  | IStruct _ _ _ ms | IUnion _ _ _ ms => forallb (fun m => modest (snd m)) ms
  end.

(** ** Images *)
Definition bit (buf : Z -> Z) (p : Z) : bool := Z.testbit (buf (p / 8)) (p mod 8).
(** What the elements of a global evaluate to: a number, or a number added to the address
    of a symbol. A bit-field cannot hold an address. *)
Definition el_value (e : elem) : eres := match el_bf e with Some _ => eval (el_expr e) | None => eval2 true (el_expr e) end.
(** Not covered for globals: an initialised member after a bit-field without initializer,
    a bit-field as the chosen member of a union, a bit-field of 64 bits. *)
Fixpoint clean (t : ity) (i : init) {struct t} : bool :=
  match t with
  | IScal _ => true
  | IArr b n => forallb (clean b) (i_kids i)
  | IStruct _ _ _ ms =>
      (fix mems (ms : list (Z * option (Z * Z) * ity)) (cs : list init) : bool :=
         match ms, cs with
         | (_, Some (_, w), _) :: ms, c :: cs => match i_expr c with Some _ => (w <? 64) && mems ms cs | None => forallb blank cs end
         | (_, None, mt) :: ms, c :: cs => clean mt c && mems ms cs
         | _, _ => true
         end) ms (i_kids i)
  | IUnion _ _ _ ms =>
      match i_mem i with
      | None => true
      | Some k =>
          (fix pick (ms : list (Z * option (Z * Z) * ity)) (cs : list init) (k : nat) : bool :=
             match ms, cs, k with
             | (_, bf, mt) :: _, c :: _, O => match bf with Some _ => false | None => clean mt c end
             | _ :: ms, _ :: cs, S k => pick ms cs k
             | _, _, _ => true
             end) ms (i_kids i) k
      end
  end.
(** Relocations of a list of elements, in order *)
Definition el_reloc (e : elem) : list (Z * bytes * Z) :=
  match el_bf e, el_value e with None, EOk v (Some l) => [(el_off e, l, v)] | _, _ => [] end.

(** ** The assembler *)
(** A byte of the object file: a number, or byte [k] of the address of [l] plus [a] *)
Inductive cell := CByte (z : Z) | CSym (l : bytes) (a k : Z).
Definition assemble1 (d : dline) : list cell :=
  match d with DByte c => [CByte (c mod 256)] | DQuad l a => map (fun k => CSym l a (Z.of_nat k)) (seq 0 8) end.
Definition assemble (d : list dline) : list cell := flat_map assemble1 d.
(** Pointers of 8 bytes, one after the other, below [sz] *)
Fixpoint rels_fit (pos sz : Z) (r : list (Z * bytes * Z)) : Prop :=
  match r with [] => pos <= sz | (o, _, _) :: r => pos <= o /\ rels_fit (o + 8) sz r end.

(** What byte [p] of the object should be *)
Definition covers (p : Z) (r : Z * bytes * Z) : bool := (fst (fst r) <=? p) && (p <? fst (fst r) + 8).
Definition cell_at (rel : list (Z * bytes * Z)) (buf : Z -> Z) (p : Z) : cell :=
  match find (covers p) rel with Some (o, l, a) => CSym l a (p - o) | None => CByte (buf p mod 256) end.

(** ** Locals *)
(** Zero everything, then for each element in order: evaluate, convert, store *)
Section Local.
Variable EV : node -> mem -> option (Z * mem).    (* the value of an expression *)
Variable valid : Z -> bool.
Fixpoint run (base : Z) (l : list elem) (m : mem) : option mem :=
  match l with
  | [] => Some m
  | e :: r =>
      let* (v, m) := EV (el_expr e) m in
      let* v := conv (el_ty e) v in
      let* (_, m) := write valid (el_bf e) (el_ty e) m (base + el_off e) v in
      run base r m
  end.
Definition run_init (base size : Z) (l : list elem) (m : mem) : option mem :=
  if accessible valid base size then run base l (le_store m base size 0) else None.
End Local.

(** The value of an expression that neither looks at the object nor changes anything *)
Definition outside (base size : Z) (m m' : mem) : Prop := forall x, x < base \/ base + size <= x -> m' x = m x.
Definition settled (EV : node -> mem -> option (Z * mem)) (base size : Z) (m : mem) (e : node) (v : Z) : Prop := forall m', outside base size m m' -> EV e m' = Some (v, m').
