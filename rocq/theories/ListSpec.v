(** Initializers as C11 6.7.9 defines them, by a position that moves through the object
    (p17, p20): the list of what is assigned to which part, in order. Of ListModel only the
    types and the tokens are used. *)
From Verif Require Import Base TypeModel NodeModel InitModel ListModel.
Local Notation length := List.length.

(** initializer, initializer-list, designators *)
Inductive dsg := DIx (n : Z) | DFd (x : bytes).
Inductive ini :=
  | VEx (e : node)                              (* an expression that is not a string literal *)
  | VSt (k : Z) (vs : list Z) (e : node)        (* a string literal: size of the elements, elements with the 0; as an expression *)
  | VBr (l : items) (trail : bool)              (* braces, whether with a comma at the end *)
with items :=
  | INil
  | ICons (ds : list dsg) (v : ini) (l : items).

Definition dsg_tok (d : dsg) : itok := match d with DIx n => KIdx n | DFd x => KDot x end.
Definition dsg_toks (ds : list dsg) : list itok := match ds with [] => [] | _ => map dsg_tok ds ++ [KEq] end.
Fixpoint ini_toks (v : ini) : list itok :=
  match v with
  | VEx e => [KExpr e]
  | VSt k vs e => [KStr k vs e]
  | VBr l trail =>
      KLb :: match l with INil => [] | ICons ds v l => dsg_toks ds ++ ini_toks v ++ more_toks l end ++ (if trail then [KComma] else []) ++ [KRb]
  end
with more_toks (l : items) : list itok :=
  match l with INil => [] | ICons ds v l => KComma :: dsg_toks ds ++ ini_toks v ++ more_toks l end.

(** *** Parts of an object: paths, outermost step first *)
Definition child (t : nty) (i : nat) : option nty :=
  match t with
  | NScal _ => None
  | NArr b n => if (i <? n)%nat then Some b else None
  | NStruct _ _ _ ms | NUnion _ _ _ ms => m_nth ms i
  end.
Fixpoint sub (t : nty) (p : list nat) : option nty :=
  match p with [] => Some t | i :: p => match child t i with Some t => sub t p | None => None end end.
Definition scalar (t : nty) : bool := match t with NScal _ => true | _ => false end.
Definition union (t : nty) : bool := match t with NUnion _ _ _ _ => true | _ => false end.
(** whether a part follows the [i]th: of a union only one member is initialized *)
Definition more (t : nty) (i : nat) : bool :=
  match t with NArr _ n => (S i <? n)%nat | NStruct _ _ _ ms => (S i <? m_len ms)%nat | _ => false end.
(** the next part of [t] after the one at [p] *)
Fixpoint next (t : nty) (p : list nat) : option (list nat) :=
  match p with
  | [] => None
  | i :: p =>
      match (match child t i with Some c => next c p | None => None end) with
      | Some q => Some (i :: q)
      | None => if more t i then Some [S i] else None
      end
  end.

(** *** Designators (p6, p7). The part named by [ds] in [t]. Left out: structures with a
    member without a name before the one meant (C66_anonymous_refuted); after the first
    designator ([first]), members of a structure other than the last, unless the initializer
    is the last one of its list (C66_nested_refuted). *)
Fixpoint find (x : bytes) (ms : mems) (i : nat) : option nat :=
  match ms with
  | MCons (Some y) _ _ _ ms => if list_eq_dec Z.eq_dec y x then Some i else find x ms (S i)
  | _ => None
  end.
Fixpoint resolve (first last : bool) (t : nty) (ds : list dsg) : option (list nat) :=
  match ds with
  | [] => Some []
  | d :: ds =>
      let* i := match d, t with
        | DIx n, NArr _ len => if (0 <=? n) && (n <? Z.min (Z.of_nat len) (2 ^ 31)) then Some (Z.to_nat n) else None
        | DFd x, NStruct _ _ _ ms => let* i := find x ms O in if first || last || negb (more t i) then Some i else None
        | DFd x, NUnion _ _ _ ms => find x ms O
        | _, _ => None
        end in
      let* c := child t i in
      let* p := resolve false last c ds in
      Some (i :: p)
  end.

(** *** p11 - p16: what can be initialized by [v] as a whole *)
Definition struct_ty (t : ty) : bool := match t with TStruct _ _ _ => true | _ => false end.
Definition union_ty (t : ty) : bool := match t with TUnion _ _ _ => true | _ => false end.
Definition chars (b : nty) (k : Z) : bool := match b with NScal t => (size_of t =? k) && ((k =? 1) || (k =? 2) || (k =? 4)) | _ => false end.
Definition fits (t : nty) (v : ini) : bool :=
  match v, t with
  | VBr _ _, _ => true
  | _, NScal _ => true
  | VEx e, NStruct _ _ _ _ => struct_ty (ntype e)
  | VSt k _ _, NArr b _ => chars b k
  | _, _ => false
  end.
(** p20: the first part of the object at [p], of type [t], that [v] fits. Left out: a string
    literal for the first element of an array (C66_string_refuted), union expressions
    (C66_union_expression_refuted). *)
Fixpoint descend (v : ini) (t : nty) (p : list nat) : option (list nat) :=
  if fits t v then Some p else
  match t with
  | NArr b (S _) => match v with VSt _ _ _ => None | _ => descend v b (p ++ [O]) end
  | NStruct _ _ _ (MCons _ _ _ c _) | NUnion _ _ _ (MCons _ _ _ c _) => descend v c (p ++ [O])
  | _ => None
  end.

(** Assignments: the part and the expression *)
Definition writes := list (list nat * node).
Definition under (p : list nat) (ws : writes) : writes := map (fun '(q, e) => (p ++ q, e)) ws.
(** p19, left out: what is initialized twice is a scalar; otherwise C11 says that the second
    initializer replaces the first one, but see C66_override_refuted. [w]: the part assigned
    before, [q]: the part to be initialized now. *)
Fixpoint compatible (t : nty) (w q : list nat) : bool :=
  match w, q with
  | [], [] => scalar t
  | i :: w, j :: q => if (i =? j)%nat then match child t i with Some c => compatible c w q | None => false end else negb (union t)
  | _, _ => false
  end.
(** p14: the elements of a string literal, as many as there is room for *)
Definition letters (n : nat) (vs : list Z) : writes := map (fun '(i, v) => ([i], NNum (TInt false) v)) (combine (seq 0 n) vs).
Definition no_dsg (l : items) : bool := (fix go (l : items) := match l with INil => true | ICons [] _ l => go l | _ => false end) l.
Definition is_nil {A} (l : list A) : bool := match l with [] => true | _ => false end.

(** The assignments for an object of type [t] that [v] fits. Left out: a comma at the end of
    the braces around a scalar, or of the braces of a union with a designator
    (C66_trailing_refuted); designators in the list of a union after the first initializer
    (C66_union_twice_refuted); the string literal of an array in braces (C66_string_refuted:
    the rule below takes it for the initializer of the first element). *)
Fixpoint assigns (v : ini) (t : nty) : option writes :=
  match v with
  | VEx e => if fits t v && negb (union_ty (ntype e)) then Some [([], e)] else None
  | VSt k vs e =>
      match t with
      | NScal _ => Some [([], e)]
      | NArr b n => if chars b k && negb (is_nil (letters n vs)) then Some (letters n vs) else None
      | _ => None
      end
  | VBr l trail =>
      match t with
      | NScal _ => match l with ICons [] v INil => if trail then None else assigns v t | _ => None end
      | NUnion _ _ _ _ =>
          match l with
          | INil => None
          | ICons ds _ l' => if no_dsg l' && (is_nil ds || negb trail) then run t (Some [O]) [] l else None
          end
      | NArr b _ =>
          match l with
          | INil => None
          | ICons [] (VSt k _ _) INil => if chars b k then None else run t (Some [O]) [] l
          | _ => run t (Some [O]) [] l
          end
      | NStruct _ _ _ _ => match l with INil => None | _ => run t (Some [O]) [] l end
      end
  end
(** The rest of a list: [r] the type of the object the braces are for, [cur] the next part, [ws]
    what was assigned so far. None also for more initializers than parts (p2). *)
with run (r : nty) (cur : option (list nat)) (ws : writes) (l : items) : option writes :=
  match l with
  | INil => Some ws
  | ICons ds v l =>
      let* p := match ds with [] => cur | _ => resolve true (match l with INil => true | _ => false end) r ds end in
      let* t := sub r p in
      let* q := descend v t p in
      let* t := sub r q in
      let* a := assigns v t in
      if forallb (fun '(w, _) => compatible r w q) ws then run r (next r q) (ws ++ under q a) l else None
  end.

(** *** What a parsed initializer holds *)
Fixpoint part (c : init) (p : list nat) : option init :=
  match p with [] => Some c | i :: p => match nth_error (i_kids c) i with Some c => part c p | None => None end end.
(** the last expression for exactly [p]; the last step taken below [p] *)
Fixpoint last_at (ws : writes) (p : list nat) : option node :=
  match ws with [] => None | (q, e) :: ws => match last_at ws p with Some e => Some e | None => if list_eq_dec Nat.eq_dec q p then Some e else None end end.
Fixpoint step_below (q p : list nat) : option nat :=
  match p, q with [], i :: _ => Some i | i :: p, j :: q => if (i =? j)%nat then step_below q p else None | _, [] => None end.
Fixpoint last_below (ws : writes) (p : list nat) : option nat :=
  match ws with [] => None | (q, _) :: ws => match last_below ws p with Some i => Some i | None => step_below q p end end.
(** Every part holds the last expression assigned to it, and every union the member last
    initialized. *)
Definition holds (t : nty) (c : init) (ws : writes) : Prop :=
  forall p s, sub t p = Some s -> exists d, part c p = Some d /\ i_expr d = last_at ws p /\ i_mem d = if union s then last_below ws p else None.
(** p22: the length of an array without size, one more than the largest index assigned *)
Definition top (ws : writes) : Z := fold_right (fun '(p, _) n => match p with i :: _ => Z.max n (Z.of_nat i + 1) | [] => n end) 0 ws.
