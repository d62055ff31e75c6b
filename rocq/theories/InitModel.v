(** Model of initializers once parsed: /repo/parser/initializer.c:531-737 (the assignments
    for a local variable, the image of a global one) and emit_data
    (/repo/codegen.c:1891-1952). *)
From Verif Require Import Base TypeModel IntArith NodeModel EvalModel.

(** A type with its members, as far as initializers look at it (struct Type, struct
    Member of include/type.h: offset, bit_offset and bit_width of a bit-field, type).
    mem->idx is the position in the list. Flexible arrays have their final length. *)
Inductive ity :=
  | IScal (t : ty)
  | IArr (b : ity) (n : nat)
  | IStruct (id : nat) (sz al : Z) (ms : list (Z * option (Z * Z) * ity))
  | IUnion (id : nat) (sz al : Z) (ms : list (Z * option (Z * Z) * ity)).
Fixpoint erase (t : ity) : ty :=
  match t with
  | IScal t => t
  | IArr b n => TArr (erase b) (Z.of_nat n)
  | IStruct id sz al _ => TStruct id sz al
  | IUnion id sz al _ => TUnion id sz al
  end.
Definition isize (t : ity) : Z := size_of (erase t).

(** struct Initializer (include/initializer.h): expr, mem (an index), children *)
Inductive init := Init (e : option node) (m : option nat) (cs : list init).
Definition i_expr (i : init) := let (e, _, _) := i in e.
Definition i_mem (i : init) := let (_, m, _) := i in m.
Definition i_kids (i : init) := let (_, _, cs) := i in cs.

(** ** Globals *)
(** The buffer (bytes by offset) and the relocations so far: offset, label, addend *)
Record image := Img { g_buf : Z -> Z; g_rel : list (Z * bytes * Z) }.
(** initializer.c:622-634: little-endian stores of the host. None: unreachable() *)
Definition byte_at (v k : Z) : Z := (v / 256 ^ k) mod 256.
Definition put (buf : Z -> Z) (off n v : Z) : Z -> Z := fun p => if (off <=? p) && (p <? off + n) then byte_at v (p - off) else buf p.
Definition ok_size (n : Z) : bool := (n =? 1) || (n =? 2) || (n =? 4) || (n =? 8).
Definition write_buf (buf : Z -> Z) (off v sz : Z) : option (Z -> Z) := if ok_size sz then Some (put buf off sz v) else None.
(** initializer.c:636-647, as an uint64_t; a single byte is a (signed) char *)
Fixpoint get (buf : Z -> Z) (off : Z) (n : nat) : Z := match n with O => 0 | S k => buf off mod 256 + 256 * get buf (off + 1) k end.
Definition read_buf (buf : Z -> Z) (off sz : Z) : option Z :=
  if sz =? 1 then Some (sx 8 (buf off) mod 2 ^ 64) else if ok_size sz then Some (get buf off (Z.to_nat sz)) else None.

(** initializer.c:649-721 write_gvar_data. None: a diagnostic of eval, undefined behaviour
    (also of 1L << 64), unreachable(), a child that does not exist, or a floating point
    type (673-681, not modelled). *)
Fixpoint write_gvar (t : ity) (i : init) (off : Z) (g : image) {struct t} : option image :=
  match t with
  | IArr b n =>
      (fix arr (k : nat) (cs : list init) (o : Z) (g : image) : option image :=
         match k, cs with
         | O, _ => Some g
         | S k, c :: r => let* g := write_gvar b c o g in arr k r (o + isize b) g
         | S _, [] => None
         end) n (i_kids i) off g
  | IStruct _ _ _ ms =>
      (fix mems (ms : list (Z * option (Z * Z) * ity)) (cs : list init) (g : image) : option image :=
         match ms, cs with
         | [], _ => Some g
         | (mo, bf, mt) :: ms, c :: cs =>
             match bf with
             | Some (bo, bw) =>
                 match i_expr c with
                 | None => Some g                                          (* break *)
                 | Some e =>
                     let* old := read_buf (g_buf g) (off + mo) (isize mt) in
                     match eval e with
                     | EOk v _ =>
                         if (0 <=? bw) && (bw <? 64) && (0 <=? bo) && (bo <? 64) then
                           let new := (v mod 2 ^ 64) mod 2 ^ bw in
                           let* b := write_buf (g_buf g) (off + mo) (Z.lor old (new * 2 ^ bo mod 2 ^ 64)) (isize mt) in
                           mems ms cs (Img b (g_rel g))
                         else None
                     | _ => None
                     end
                 end
             | None => let* g := write_gvar mt c (off + mo) g in mems ms cs g
             end
         | _ :: _, [] => None
         end) ms (i_kids i) g
  | IUnion _ _ _ ms =>
      match i_mem i with
      | None => Some g
      | Some k =>
          (fix pick (ms : list (Z * option (Z * Z) * ity)) (cs : list init) (k : nat) : option image :=
             match ms, cs, k with
             | (_, _, mt) :: _, c :: _, O => write_gvar mt c off g
             | _ :: ms, _ :: cs, S k => pick ms cs k
             | _, _, _ => None
             end) ms (i_kids i) k
      end
  | IScal ty =>
      match i_expr i with
      | None => Some g
      | Some e =>
          if is_float ty then None else
          match eval2 true e with
          | EOk v None => let* b := write_buf (g_buf g) off v (size_of ty) in Some (Img b (g_rel g))
          | EOk v (Some l) => Some (Img (g_buf g) (g_rel g ++ [(off, l, v)]))
          | _ => None
          end
      end
  end.
(** initializer.c:727-737; [junk] is what malloc left in the buffer *)
Definition gvar_init (junk : Z -> Z) (t : ity) (i : init) : option image := write_gvar t i 0 (Img junk []).

(** ** emit_data *)
(** codegen.c:1921-1937: the lines of a variable with init_data *)
Inductive dline := DByte (c : Z) | DQuad (l : bytes) (addend : Z).
Fixpoint emit_bytes (fuel : nat) (sz pos : Z) (rel : list (Z * bytes * Z)) (buf : Z -> Z) : option (list dline) :=
  if sz <=? pos then Some [] else
  match fuel with
  | O => None
  | S fuel =>
      match rel with
      | (o, l, a) :: rel' =>
          if o =? pos then let* r := emit_bytes fuel sz (pos + 8) rel' buf in Some (DQuad l a :: r)
          else let* r := emit_bytes fuel sz (pos + 1) rel buf in Some (DByte (sx 8 (buf pos)) :: r)
      | [] => let* r := emit_bytes fuel sz (pos + 1) rel buf in Some (DByte (sx 8 (buf pos)) :: r)
      end
  end.

(** ** Locals *)
(** initializer.c:531-546 init_desg_expr: the path to a part of the variable, outermost
    first here; new_var_node, ND_MEMBER, *(x + idx). None: an error of new_add or add_type. *)
Inductive step := SMem (m : minfo) | SIdx (k : nat).
Definition desg_step (l : node) (s : step) : option node :=
  match s with
  | SMem m => Some (NMember l m)
  | SIdx k => let* a := new_add l (NNum (TInt false) (Z.of_nat k)) in mk_deref a
  end.
(** initializer.c:548-592 create_lvar_init; [l] is init_desg_expr of the path *)
Fixpoint lvar_init (t : ity) (i : init) (l : node) {struct t} : option node :=
  let leaf := match i_expr i with None => Some NNull | Some e => mk_assign l e end in
  match t with
  | IScal _ => leaf
  | IArr b n =>
      (fix arr (k : nat) (cs : list init) (idx : nat) (acc : node) : option node :=
         match k, cs with
         | O, _ => Some acc
         | S k, c :: r => let* d := desg_step l (SIdx idx) in let* x := lvar_init b c d in arr k r (S idx) (NComma acc x)
         | S _, [] => None
         end) n (i_kids i) 0%nat NNull
  | IStruct _ _ _ ms =>
      match i_expr i with
      | Some _ => leaf
      | None =>
          (fix mems (ms : list (Z * option (Z * Z) * ity)) (cs : list init) (acc : node) : option node :=
             match ms, cs with
             | [], _ => Some acc
             | (mo, bf, mt) :: ms, c :: cs => let* x := lvar_init mt c (NMember l (MInfo (erase mt) mo bf)) in mems ms cs (NComma acc x)
             | _ :: _, [] => None
             end) ms (i_kids i) NNull
      end
  | IUnion _ _ _ ms =>
      (fix pick (ms : list (Z * option (Z * Z) * ity)) (cs : list init) (k : nat) : option node :=
         match ms, cs, k with
         | (mo, bf, mt) :: _, c :: _, O => lvar_init mt c (NMember l (MInfo (erase mt) mo bf))
         | _ :: ms, _ :: cs, S k => pick ms cs k
         | _, _, _ => None
         end) ms (i_kids i) (match i_mem i with Some k => k | None => 0%nat end)
  end.
(** initializer.c:604-620 lvar_initializer: ND_MEMZERO, then the assignments *)
Definition lvar_initializer (x : var) (t : ity) (i : init) : option node :=
  let* n := lvar_init t i (NVar x (erase t)) in Some (NComma (NMemzero x (erase t)) n).
