(** Declarators as C11 6.7.6 and 6.7.7 define them: their syntax trees, the tokens a tree
    stands for, and the type it gives to the identifier. Only the tokens and the type
    trees of DeclModel are used. *)
From Verif Require Import Base DeclModel.

(** The specifiers of a parameter: none, void, or others *)
Inductive pspec := SNone | SVoid | SSpec (b : bytes).
(** declarator, direct-declarator (a missing identifier: abstract-declarator), parameters *)
Inductive dcl :=
  | Pointer (qs : list bool) (d : dcl)                       (* * qualifiers D *)
  | Direct (d : dir)
with dir :=
  | Name (x : option bytes)
  | Paren (d : dcl)                                          (* ( D ) *)
  | Array (d : dir) (qs : list bool) (n : option (option Z)) (* D [ static/restrict size ] *)
  | Func (d : dir) (p : pars)                                (* D ( parameters ) *)
with pars :=
  | NoParams                                                 (* void *)
  | Params (l : plist) (dots : bool)
with plist :=
  | PNil
  | PCons (s : pspec) (d : dcl) (l : plist).

(** *** The tokens *)
Definition spec_toks (s : pspec) : list dtok := match s with SNone => [] | SVoid => [DVoid] | SSpec b => [DSpec b] end.
Definition size_toks (n : option (option Z)) : list dtok := match n with Some z => [DExpr z] | None => [] end.
Definition dq_tok (b : bool) : dtok := if b then DStatic else DQual true.
Fixpoint toks (d : dcl) : list dtok :=
  match d with
  | Pointer qs d => DStar :: map DQual qs ++ toks d
  | Direct d => dir_toks d
  end
with dir_toks (d : dir) : list dtok :=
  match d with
  | Name (Some x) => [DId x]
  | Name None => []
  | Paren d => DLPar :: toks d ++ [DRPar]
  | Array d qs n => dir_toks d ++ DLBrk :: map dq_tok qs ++ size_toks n ++ [DRBrk]
  | Func d p => dir_toks d ++ DLPar :: pars_toks p
  end
with pars_toks (p : pars) : list dtok :=
  match p with
  | NoParams => [DVoid; DRPar]
  | Params PNil true => [DDots; DRPar]
  | Params PNil false => [DRPar]
  | Params (PCons s d l) dots => spec_toks s ++ toks d ++ more_toks l ++ (if dots then [DComma; DDots] else []) ++ [DRPar]
  end
with more_toks (l : plist) : list dtok :=
  match l with
  | PNil => []
  | PCons s d l => DComma :: spec_toks s ++ toks d ++ more_toks l
  end.

(** *** The type (6.7.6.1 - 6.7.6.3) *)
Definition spec_type (s : pspec) : dty := match s with SNone => Bas intb | SVoid => Bas voidb | SSpec b => Bas b end.
(** 6.7.6.2: an array of a constant number of elements of known size; otherwise a variable
    length array *)
Definition arr (n : option (option Z)) (t : dty) : dty :=
  match n with
  | None => Arr (-1) t
  | Some (Some z) => match t with Vla _ => Vla t | _ => Arr z t end
  | Some None => Vla t
  end.
(** 6.7.6.3p7, p8 *)
Definition param_type (t : dty) : dty := match t with Arr _ b | Vla b => Ptr b | Fun _ _ _ => Ptr t | _ => t end.
Fixpoint name (d : dcl) : option bytes := match d with Pointer _ d => name d | Direct d => dir_name d end
with dir_name (d : dir) : option bytes :=
  match d with Name x => x | Paren d => name d | Array d _ _ => dir_name d | Func d _ => dir_name d end.
(** the type of the identifier declared by `T D` *)
Fixpoint typ (d : dcl) (t : dty) : dty :=
  match d with
  | Pointer _ d => typ d (Ptr t)
  | Direct d => dir_typ d t
  end
with dir_typ (d : dir) (t : dty) : dty :=
  match d with
  | Name _ => t
  | Paren d => typ d t
  | Array d _ n => dir_typ d (arr n t)
  | Func d p => dir_typ d (match p with NoParams => Fun t [] false | Params l dots => Fun t (plist_typ l) dots end)
  end
with plist_typ (l : plist) : list (option bytes * dty) :=
  match l with
  | PNil => []
  | PCons s d l => (name d, param_type (typ d (spec_type s))) :: plist_typ l
  end.

(** *** What is taken *)
Definition no_func (d : dir) : bool := match d with Func _ _ => false | _ => true end.
Definition empty (d : dcl) : bool := match d with Direct (Name None) => true | _ => false end.
Definition nameless (d : dir) : bool := match d with Name None => true | _ => false end.
Definition not_vla (t : dty) : Prop := match t with Vla _ => False | _ => True end.
(** C11, with [abstract] for type names: no array or function suffix after a parameter list
    (6.7.6.3p1), sizes of arrays not negative (6.7.6.2p1) and less than 2^31; specifiers in
    every parameter; at least one parameter before the dots. Not taken, though C11: a
    declarator without a name that starts with a parameter list, as in int (int)
    (C62_abstract_function_refuted), and parameters that are variable length arrays
    (C62_vla_parameter_refuted). *)
Fixpoint taken (abstract : bool) (d : dcl) : Prop :=
  match d with
  | Pointer _ d => taken abstract d
  | Direct d => dir_taken abstract d
  end
with dir_taken (abstract : bool) (d : dir) : Prop :=
  match d with
  | Name x => abstract = true -> x = None
  | Paren d => taken abstract d /\ empty d = false
  | Array d _ n => dir_taken abstract d /\ no_func d = true /\ match n with Some (Some z) => 0 <= z < 2 ^ 31 | _ => True end
  | Func d p => dir_taken abstract d /\ no_func d = true /\ nameless d = false /\
      match p with
      | NoParams => True
      | Params l dots => plist_taken l /\ (l = PNil -> dots = false) /\ ~ (l = PCons SVoid (Direct (Name None)) PNil /\ dots = false)
      end
  end
with plist_taken (l : plist) : Prop :=
  match l with
  | PNil => True
  | PCons s d l => s <> SNone /\ taken false d /\ not_vla (typ d (spec_type s)) /\ plist_taken l
  end.
(** Any tree whose array sizes fit an int and whose parameters are not variable length arrays *)
Fixpoint plain (d : dcl) : Prop :=
  match d with
  | Pointer _ d => plain d
  | Direct d => dir_plain d
  end
with dir_plain (d : dir) : Prop :=
  match d with
  | Name _ => True
  | Paren d => plain d
  | Array d _ n => dir_plain d /\ match n with Some (Some z) => - 2 ^ 31 <= z < 2 ^ 31 | _ => True end
  | Func d p => dir_plain d /\ match p with NoParams => True | Params l _ => plist_plain l end
  end
with plist_plain (l : plist) : Prop :=
  match l with
  | PNil => True
  | PCons s d l => plain d /\ not_vla (typ d (spec_type s)) /\ plist_plain l
  end.
(** A token that does not continue a declarator *)
Definition stops (rest : list dtok) : Prop := match rest with (DStar | DQual _ | DLPar | DLBrk | DId _) :: _ => False | _ => True end.

(** *** Writing a type down: the declaration of [x] with type [t] *)
Definition direct (d : dcl) : dir := match d with Direct d => d | _ => Paren d end.
(** Types C has: no functions returning arrays or functions, no arrays of functions, parameters
    adjusted *)
Fixpoint valid (t : dty) : Prop :=
  match t with
  | Bas _ => True
  | Ptr t => valid t
  | Arr n t => valid t /\ -1 <= n < 2 ^ 31 /\ match t with Fun _ _ _ | Vla _ => False | _ => True end
  | Vla t => valid t /\ match t with Fun _ _ _ => False | _ => True end
  | Fun r ps v => valid r /\ match r with Fun _ _ _ | Arr _ _ | Vla _ => False | _ => True end /\
      (fix all (l : list (option bytes * dty)) := match l with [] => True | (_, t) :: l => valid t /\ param_type t = t /\ t <> Bas voidb /\ all l end) ps /\
      (v = true -> ps <> [])
  end.
(** the specifiers, and the declarator around [d] *)
Fixpoint unwind (t : dty) (d : dcl) : bytes * dcl :=
  match t with
  | Bas b => (b, d)
  | Ptr t => unwind t (Pointer [] d)
  | Arr n t => unwind t (Direct (Array (direct d) [] (if n =? -1 then None else Some (Some n))))
  | Vla t => unwind t (Direct (Array (direct d) [] (Some None)))
  | Fun r ps v =>
      unwind r (Direct (Func (direct d)
        (Params ((fix all (l : list (option bytes * dty)) := match l with [] => PNil | (x, t) :: l => let (b, d) := unwind t (Direct (Name x)) in PCons (SSpec b) d (all l) end) ps) v)))
  end.
Definition declaration (t : dty) (x : option bytes) : list dtok := let (b, d) := unwind t (Direct (Name x)) in DSpec b :: toks d.
