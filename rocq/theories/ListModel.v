(** Model of the parsing of initializers: /repo/parser/initializer.c:5-529 (new_initializer,
    string_initializer, designators, brace elision). Simplifications: an assignment-expression
    is one token carrying the node assign() returns for it, `[ n ]`, `[ n ... m ]` and `. x`
    are one token each; a string literal is one token (an expression that starts with a string
    literal, such as "abc"[1], is a KExpr); flexible array members are left out, arrays
    without a size are in [unsized]. *)
From Verif Require Import Base TypeModel IntArith NodeModel InitModel.

(** A type as initializers look at it, with the names of the members: struct Type and
    struct Member of include/type.h. A missing name: anonymous structs and unions, unnamed
    bit-fields. *)
Inductive nty :=
  | NScal (t : ty)
  | NArr (b : nty) (n : nat)
  | NStruct (id : nat) (sz al : Z) (ms : mems)
  | NUnion (id : nat) (sz al : Z) (ms : mems)
with mems :=
  | MNil
  | MCons (x : option bytes) (off : Z) (bf : option (Z * Z)) (t : nty) (ms : mems).
(** The type without the names, for InitModel *)
Fixpoint ity_of (t : nty) : ity :=
  match t with
  | NScal t => IScal t
  | NArr b n => IArr (ity_of b) n
  | NStruct id sz al ms => IStruct id sz al (ity_mems ms)
  | NUnion id sz al ms => IUnion id sz al (ity_mems ms)
  end
with ity_mems (ms : mems) : list (Z * option (Z * Z) * ity) :=
  match ms with MNil => [] | MCons _ off bf t ms => (off, bf, ity_of t) :: ity_mems ms end.

(** Tokens. KStr: the size of the elements, the elements with the terminating 0, and the
    node of the string literal as an expression. *)
Inductive itok :=
  | KLb | KRb | KComma | KEq
  | KIdx (n : Z) | KRange (a b : Z) | KDot (x : bytes)
  | KExpr (e : node) | KStr (k : Z) (vs : list Z) (e : node) | KOther.

(** LErr: a diagnostic. LUb: a null pointer or an element of the array of children that does
    not exist is used, unreachable() is reached, or string elements of another size are
    read. *)
Inductive lres (A : Type) := LOk (a : A) | LErr | LUb | LFuel.
Arguments LOk {A}. Arguments LErr {A}. Arguments LUb {A}. Arguments LFuel {A}.

(** initializer.c:5-46 new_initializer *)
Fixpoint blank (t : nty) : init :=
  match t with
  | NScal _ => Init None None []
  | NArr b n => Init None None (repeat (blank b) n)
  | NStruct _ _ _ ms | NUnion _ _ _ ms => Init None None (blanks ms)
  end
with blanks (ms : mems) : list init := match ms with MNil => [] | MCons _ _ _ t ms => blank t :: blanks ms end.

Fixpoint m_len (ms : mems) : nat := match ms with MNil => O | MCons _ _ _ _ ms => S (m_len ms) end.
Fixpoint m_nth (ms : mems) (i : nat) : option nty :=
  match ms, i with MNil, _ => None | MCons _ _ _ t _, O => Some t | MCons _ _ _ _ ms, S i => m_nth ms i end.
Fixpoint set_nth (l : list init) (i : nat) (c : init) : list init :=
  match l, i with [], _ => [] | _ :: l, O => c :: l | a :: l, S i => a :: set_nth l i c end.
Definition set_kid (p : init) (i : nat) (c : init) : init := let (e, m, cs) := p in Init e m (set_nth cs i c).
Definition set_expr (p : init) (e : option node) : init := let (_, m, cs) := p in Init e m cs.
Definition set_mem (p : init) (k : nat) : init := let (e, _, cs) := p in Init e (Some k) cs.
(** init->children[i], changed in place *)
Definition with_kid (p : init) (i : nat) (f : init -> lres (init * list itok)) : lres (init * list itok) :=
  match nth_error (i_kids p) i with
  | None => LUb
  | Some c => match f c with LOk (c', r) => LOk (set_kid p i c', r) | LErr => LErr | LUb => LUb | LFuel => LFuel end
  end.
Definition is_struct (t : ty) : bool := match t with TStruct _ _ _ => true | _ => false end.

(** initializer.c:48-57 *)
Fixpoint skip_excess (ts : list itok) : option (list itok) :=
  match ts with
  | KLb :: r => match skip_excess r with Some (KRb :: r) => Some r | _ => None end
  | KExpr _ :: r | KStr _ _ _ :: r => Some r
  | _ => None
  end.
(** parser/common.c:4-17, initializer.c:267-270 *)
Definition consume_end (ts : list itok) : option (list itok) := match ts with KRb :: r | KComma :: KRb :: r => Some r | _ => None end.
Definition is_end (ts : list itok) : bool := match ts with KRb :: _ | KComma :: KRb :: _ => true | _ => false end.
Definition designated (ts : list itok) : bool := match ts with (KIdx _ | KRange _ _ | KDot _) :: _ => true | _ => false end.

(** parser.c:305-325 get_struct_member, whether there is one. None: a member without a name
    that is neither a struct nor a union. *)
Fixpoint has_member (x : bytes) (t : nty) : option bool :=
  match t with NStruct _ _ _ ms | NUnion _ _ _ ms => has_mem x ms | _ => Some false end
with has_mem (x : bytes) (ms : mems) : option bool :=
  match ms with
  | MNil => Some false
  | MCons None _ _ (NStruct _ _ _ _ as t) ms | MCons None _ _ (NUnion _ _ _ _ as t) ms =>
      match has_member x t with None => None | Some true => Some true | Some false => has_mem x ms end
  | MCons None _ _ _ _ => None
  | MCons (Some y) _ _ _ ms => if list_eq_dec Z.eq_dec y x then Some true else has_mem x ms
  end.
(** initializer.c:142-171 struct_designator: the member, and whether the designator is used
    up *)
Fixpoint struct_desig (x : bytes) (ms : mems) (i : nat) : lres (nat * bool) :=
  match ms with
  | MNil => LErr
  | MCons None _ _ (NStruct _ _ _ _ as t) ms =>
      match has_member x t with None => LUb | Some true => LOk (i, false) | Some false => struct_desig x ms (S i) end
  | MCons None _ _ _ _ => LUb
  | MCons (Some y) _ _ _ ms => if list_eq_dec Z.eq_dec y x then LOk (i, true) else struct_desig x ms (S i)
  end.
(** initializer.c:121-139 array_designator: first and last index, as ints *)
Definition array_desig (a b : Z) (n : nat) : lres (nat * nat) :=
  let a := sx 32 a in let b := sx 32 b in
  if Z.of_nat n <=? a then LErr else if Z.of_nat n <=? b then LErr else if b <? a then LErr else if a <? 0 then LUb else LOk (Z.to_nat a, Z.to_nat b).
(** initializer.c:61-92 string_initializer *)
Fixpoint put_string (vs : list Z) (cs : list init) : list init :=
  match vs, cs with
  | v :: vs, c :: cs => set_expr c (Some (NNum (TInt false) v)) :: put_string vs cs
  | _, _ => cs
  end.
Definition string_init (b : nty) (k : Z) (vs : list Z) (c : init) : lres init :=
  match b with
  | NScal t => if (size_of t =? k) && ((k =? 1) || (k =? 2) || (k =? 4)) then let (e, m, cs) := c in LOk (Init e m (put_string vs cs)) else LUb
  | _ => LUb
  end.

(** initializer.c:196-197, 293-294: the elements of a range, one after the other, from the
    same tokens *)
Fixpoint each (f : init -> lres (init * list itok)) (p : init) (i k : nat) (ts : list itok) : lres (init * list itok) :=
  match k with
  | O => LOk (p, ts)
  | S k => match with_kid p i f with LOk (p, ts) => each f p (S i) k ts | LErr => LErr | LUb => LUb | LFuel => LFuel end
  end.

(** initializer.c:434-482 initializer2, 181-227 designation, 274-306 array_initializer1 (after
    the brace), 309-336 array_initializer2, 339-369 struct_initializer1 (after the brace),
    372-396 struct_initializer2, 401-429 union_initializer; [i]: i, or mem->idx *)
Fixpoint init2 (fuel : nat) (t : nty) (c : init) (ts : list itok) : lres (init * list itok) :=
  match fuel with
  | O => LFuel
  | S fuel =>
      match t with
      | NArr b n =>
          match ts with
          | KStr k vs _ :: r => match string_init b k vs c with LOk c => LOk (c, r) | LErr => LErr | LUb => LUb | LFuel => LFuel end
          | KLb :: r => arr1 fuel b n c O true r
          | _ => arr2 fuel b n c O ts
          end
      | NStruct _ _ _ ms =>
          match ts with
          | KLb :: r => str1 fuel ms c O true r
          | KExpr e :: r => if is_struct (ntype e) then LOk (set_expr c (Some e), r) else str2 fuel ms c O true ts
          | KStr _ _ _ :: _ => str2 fuel ms c O true ts
          | _ => LErr
          end
      | NUnion _ _ _ ms =>
          match ts with
          | KLb :: KDot x :: r =>
              match struct_desig x ms O with
              | LOk (i, used) =>
                  match with_kid (set_mem c i) i (fun k => match m_nth ms i with Some t => desig fuel t k (if used then r else KDot x :: r) | None => LUb end) with
                  | LOk (c, KRb :: r) => LOk (c, r)
                  | LOk _ => LErr
                  | r => r
                  end
              | LErr => LErr | LUb => LUb | LFuel => LFuel
              end
          | KLb :: r =>
              match with_kid (set_mem c O) O (fun k => match m_nth ms O with Some t => init2 fuel t k r | None => LUb end) with
              | LOk (c, r) => match (match r with KComma :: r => r | _ => r end) with KRb :: r => LOk (c, r) | _ => LErr end
              | r => r
              end
          | _ => with_kid (set_mem c O) O (fun k => match m_nth ms O with Some t => init2 fuel t k ts | None => LUb end)
          end
      | NScal _ =>
          match ts with
          | KLb :: r => match init2 fuel t c r with LOk (c, KRb :: r) => LOk (c, r) | LOk _ => LErr | r => r end
          | KExpr e :: r | KStr _ _ e :: r => LOk (set_expr c (Some e), r)
          | _ => LErr
          end
      end
  end
with desig (fuel : nat) (t : nty) (c : init) (ts : list itok) : lres (init * list itok) :=
  match fuel with
  | O => LFuel
  | S fuel =>
      let range a b r :=
        match t with
        | NArr bt n =>
            match array_desig a b n with
            | LOk (i, j) =>
                match each (fun k => desig fuel bt k r) c i (S j - i) r with
                | LOk (c, r) => arr2 fuel bt n c (S j) r
                | r => r
                end
            | LErr => LErr | LUb => LUb | LFuel => LFuel
            end
        | _ => LErr
        end in
      match ts with
      | KIdx a :: r => range a a r
      | KRange a b :: r => range a b r
      | KDot x :: r =>
          match t with
          | NStruct _ _ _ ms =>
              match struct_desig x ms O with
              | LOk (i, used) =>
                  match with_kid c i (fun k => match m_nth ms i with Some t => desig fuel t k (if used then r else ts) | None => LUb end) with
                  | LOk (c, r) => str2 fuel ms (set_expr c None) (S i) true r
                  | r => r
                  end
              | LErr => LErr | LUb => LUb | LFuel => LFuel
              end
          | NUnion _ _ _ ms =>
              match struct_desig x ms O with
              | LOk (i, used) => with_kid (set_mem c i) i (fun k => match m_nth ms i with Some t => desig fuel t k (if used then r else ts) | None => LUb end)
              | LErr => LErr | LUb => LUb | LFuel => LFuel
              end
          | _ => LErr
          end
      | KEq :: r => init2 fuel t c r
      | _ => init2 fuel t c ts
      end
  end
with arr1 (fuel : nat) (b : nty) (n : nat) (c : init) (i : nat) (first : bool) (ts : list itok) : lres (init * list itok) :=
  match fuel with
  | O => LFuel
  | S fuel =>
      match consume_end ts with
      | Some r => LOk (c, r)
      | None =>
          match (if first then Some ts else match ts with KComma :: r => Some r | _ => None end) with
          | None => LErr
          | Some ts =>
              let range x y r :=
                match array_desig x y n with
                | LOk (i, j) =>
                    match each (fun k => desig fuel b k r) c i (S j - i) r with
                    | LOk (c, r) => arr1 fuel b n c (S j) false r
                    | r => r
                    end
                | LErr => LErr | LUb => LUb | LFuel => LFuel
                end in
              match ts with
              | KIdx a :: r => range a a r
              | KRange x y :: r => range x y r
              | _ =>
                  if (i <? n)%nat then
                    match with_kid c i (fun k => init2 fuel b k ts) with
                    | LOk (c, r) => arr1 fuel b n c (S i) false r
                    | r => r
                    end
                  else match skip_excess ts with Some r => arr1 fuel b n c (S i) false r | None => LErr end
              end
          end
      end
  end
with arr2 (fuel : nat) (b : nty) (n : nat) (c : init) (i : nat) (ts : list itok) : lres (init * list itok) :=
  match fuel with
  | O => LFuel
  | S fuel =>
      if (i <? n)%nat && negb (is_end ts) then
        match (match i with O => Some ts | _ => match ts with KComma :: r => Some r | _ => None end end) with
        | None => LErr
        | Some ts' =>
            if designated ts' then LOk (c, ts) else
            match with_kid c i (fun k => init2 fuel b k ts') with
            | LOk (c, r) => arr2 fuel b n c (S i) r
            | r => r
            end
        end
      else LOk (c, ts)
  end
with str1 (fuel : nat) (ms : mems) (c : init) (i : nat) (first : bool) (ts : list itok) : lres (init * list itok) :=
  match fuel with
  | O => LFuel
  | S fuel =>
      match consume_end ts with
      | Some r => LOk (c, r)
      | None =>
          match (if first then Some ts else match ts with KComma :: r => Some r | _ => None end) with
          | None => LErr
          | Some ts =>
              match ts with
              | KDot x :: r =>
                  match struct_desig x ms O with
                  | LOk (i, used) =>
                      match with_kid c i (fun k => match m_nth ms i with Some t => desig fuel t k (if used then r else ts) | None => LUb end) with
                      | LOk (c, r) => str1 fuel ms c (S i) false r
                      | r => r
                      end
                  | LErr => LErr | LUb => LUb | LFuel => LFuel
                  end
              | _ =>
                  match m_nth ms i with
                  | Some t =>
                      match with_kid c i (fun k => init2 fuel t k ts) with
                      | LOk (c, r) => str1 fuel ms c (S i) false r
                      | r => r
                      end
                  | None => match skip_excess ts with Some r => str1 fuel ms c i false r | None => LErr end
                  end
              end
          end
      end
  end
with str2 (fuel : nat) (ms : mems) (c : init) (i : nat) (first : bool) (ts : list itok) : lres (init * list itok) :=
  match fuel with
  | O => LFuel
  | S fuel =>
      match m_nth ms i with
      | None => LOk (c, ts)
      | Some t =>
          if is_end ts then LOk (c, ts) else
          match (if first then Some ts else match ts with KComma :: r => Some r | _ => None end) with
          | None => LErr
          | Some ts' =>
              if designated ts' then LOk (c, ts) else
              match with_kid c i (fun k => init2 fuel t k ts') with
              | LOk (c, r) => str2 fuel ms c (S i) false r
              | r => r
              end
          end
      end
  end.
(** initializer.c:505-511, for a type of known size *)
Definition initializer (fuel : nat) (t : nty) (ts : list itok) : lres (init * list itok) := init2 fuel t (blank t) ts.

(** initializer.c:233-265 count_array_init_elements; [d] is the dummy initializer *)
Fixpoint count (fuel : nat) (b : nty) (d : init) (first : bool) (i max : Z) (ts : list itok) : lres Z :=
  match fuel with
  | O => LFuel
  | S fuel =>
      match consume_end ts with
      | Some _ => LOk max
      | None =>
          match (if first then Some ts else match ts with KComma :: r => Some r | _ => None end) with
          | None => LErr
          | Some ts =>
              let '(i, r) := match ts with KIdx a :: r => (sx 32 a, desig fuel b d r) | KRange _ a :: r => (sx 32 a, desig fuel b d r) | _ => (i, init2 fuel b d ts) end in
              match r with
              | LOk (d, ts) => count fuel b d false (i + 1) (Z.max max (i + 1)) ts
              | LErr => LErr | LUb => LUb | LFuel => LFuel
              end
          end
      end
  end.
(** initializer.c:61-65, 279-282, 505-529: an array without a size; the result is its length
    and the initializer. Not modelled (LUb): neither a string nor a brace. *)
Definition unsized (fuel : nat) (b : nty) (ts : list itok) : lres (Z * init * list itok) :=
  let run n := match init2 fuel (NArr b (Z.to_nat n)) (blank (NArr b (Z.to_nat n))) ts with LOk (c, r) => LOk (n, c, r) | LErr => LErr | LUb => LUb | LFuel => LFuel end in
  match ts with
  | KStr _ vs _ :: _ => run (Z.of_nat (List.length vs))
  | KLb :: r =>
      match count fuel b (blank b) true 0 0 r with
      | LOk n => run n
      | LErr => LErr | LUb => LUb | LFuel => LFuel
      end
  | _ => LUb
  end.
