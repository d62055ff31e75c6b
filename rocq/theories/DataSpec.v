(** What the assembler does with the lines of a file: sections that grow, symbols. *)
From Verif Require Import Base InitModel InitSpec DataModel.

Inductive symbol := Defined (s : sect) (off : Z) | Common (size align : Z).
Record objfile := Obj {
  cur : sect;                            (* where data goes *)
  body : sect -> list cell;
  power : sect -> Z;                     (* a section starts at a multiple of 2 ^ power *)
  sym : bytes -> option symbol;
  local : bytes -> option bool }.        (* .local or .global *)
Definition sect_eqb (a b : sect) : bool := match a, b with SData, SData | SBss, SBss | STdata, STdata | STbss, STbss => true | _, _ => false end.
Definition set {A} (f : sect -> A) (s : sect) (x : A) : sect -> A := fun t => if sect_eqb s t then x else f t.
Definition bind {A} (f : bytes -> option A) (n : bytes) (x : A) : bytes -> option A := fun k => if beq n k then Some x else f k.
Definition zeros (n : Z) : list cell := repeat (CByte 0) (Z.to_nat n).
Definition len {A} (l : list A) : Z := Z.of_nat (List.length l).
Definition add (o : objfile) (c : list cell) : objfile := Obj (cur o) (set (body o) (cur o) (body o (cur o) ++ c)) (power o) (sym o) (local o).
(** On RISC-V .align k means a multiple of 2^k *)
Definition line (o : objfile) (l : aline) : objfile :=
  match l with
  | ALocal n => Obj (cur o) (body o) (power o) (sym o) (bind (local o) n true)
  | AGlobal n => Obj (cur o) (body o) (power o) (sym o) (bind (local o) n false)
  | AComm n sz al => Obj (cur o) (body o) (power o) (bind (sym o) n (Common sz al)) (local o)
  | ASect s => Obj s (body o) (power o) (sym o) (local o)
  | AType _ | ASize _ _ => o
  | AAlign k =>
      let o' := add o (zeros ((- len (body o (cur o))) mod 2 ^ k)) in
      Obj (cur o') (body o') (set (power o') (cur o') (Z.max (power o' (cur o')) k)) (sym o') (local o')
  | ALabel n => Obj (cur o) (body o) (power o) (bind (sym o) n (Defined (cur o) (len (body o (cur o))))) (local o)
  | AData d => add o (assemble1 d)
  | AZero n => add o (zeros n)
  end.
Definition lines (o : objfile) (l : list aline) : objfile := fold_left line l o.
Definition empty : objfile := Obj SData (fun _ => []) (fun _ => 0) (fun _ => None) (fun _ => None).

(** The object file has variable [v]: its binding; a common symbol of its size and
    alignment if it is tentative and -fcommon is on; otherwise a symbol at an aligned
    place of the right section where its bytes stand. *)
Definition sect_of (v : gobj) : sect :=
  match o_init v, o_tls v with Some _, true => STdata | Some _, false => SData | None, true => STbss | None, false => SBss end.
Definition image_of (v : gobj) : list cell :=
  match o_init v with
  | Some img => map (fun k => cell_at (g_rel img) (g_buf img) (Z.of_nat k)) (seq 0 (Z.to_nat (o_size v)))
  | None => zeros (o_size v)
  end.
Definition has_var (fcommon : bool) (f : objfile) (v : gobj) : Prop :=
  local f (o_name v) = Some (o_static v) /\
  if fcommon && o_tent v then sym f (o_name v) = Some (Common (o_size v) (o_align v))
  else exists off, sym f (o_name v) = Some (Defined (sect_of v) off) /\ 0 <= off /\
       (off mod o_align v = 0 /\ (o_align v | 2 ^ power f (sect_of v))) /\
       firstn (Z.to_nat (o_size v)) (skipn (Z.to_nat off) (body f (sect_of v))) = image_of v.
(** Power of two alignment; pointers inside the object, in order, without overlap *)
Definition good_var (v : gobj) : Prop :=
  (exists k, 0 <= k < 31 /\ o_align v = 2 ^ k) /\ 0 <= o_size v /\
  match o_init v with Some img => rels_fit 0 (o_size v) (g_rel img) | None => True end.
Definition emitted (v : gobj) : bool := negb (o_fun v) && o_def v.
