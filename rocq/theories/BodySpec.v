(** The meaning of the body of a function as it is written (C11 6.8, scopes 6.2.1,
    declarations 6.7): which object each name is, and what the statements do with the
    objects. *)
From Verif Require Import Base TypeModel IntArith NodeModel ValSpec ElabSpec ParseModel BlockModel FrontModel FrontSpec StmtSpec.
From Verif Require ScopeModel.
Local Notation length := List.length.

(** ** Statements whose names are resolved *)
(** A declared object comes to life, perhaps with an initial value; or an expression *)
Inductive act := ADo (e : cexpr) | ANew (x : var) (t : ty) (i : option cexpr).
Inductive hstmt :=
  | HSkip
  | HActs (l : list act)                      (* an expression statement or a declaration *)
  | HSeq (a b : hstmt)
  | HIf (c : cexpr) (a b : hstmt)
  | HSwitch (c : cexpr) (b : hstmt)
  | HCase (lo hi : Z) (s : hstmt)
  | HDefault (s : hstmt)
  | HFor (init : list act) (c inc : option cexpr) (b : hstmt)
  | HWhile (c : cexpr) (b : hstmt)
  | HDo (b : hstmt) (c : cexpr)
  | HGoto (l : bytes)
  | HBreak
  | HContinue
  | HLabel (l : bytes) (s : hstmt)
  | HReturn (e : option cexpr).

(** ** Constants *)
(** Integer constant expressions of type int (6.6p6) without casts and sizeof *)
Fixpoint int_constant (e : cexpr) : bool :=
  match e with
  | CNum (TInt false) _ => true
  | CPlus a | CNeg a | CNot a | CBitNot a => int_constant a
  | CBin _ a b | CAnd a b | COr a b => int_constant a && int_constant b
  | CCond c a b => int_constant c && int_constant a && int_constant b
  | _ => false
  end.
Definition constant (e : cexpr) : option Z :=
  if int_constant e then let* (v, _) := cev (fun _ => 0) (fun _ => false) (fun _ _ _ _ _ => None) false e (fun _ => 0) in Some v else None.

(** ** Names *)
(** The declarations in force, those of the innermost block first, its last one first *)
Definition senv := list (list (bytes * ent)).
Fixpoint assoc (n : bytes) (l : list (bytes * ent)) : option ent := match l with [] => None | (m, e) :: l => if beq m n then Some e else assoc n l end.
Section Resolve.
Variable outer : bytes -> option ent.               (* parameters and what is declared outside *)
Variable x : ctx.                                   (* only for types, members and the names of strings *)
Variable number : bytes -> option (ty * Z).         (* integer constants *)
Fixpoint denotes (env : senv) (n : bytes) : option ent := match env with [] => outer n | b :: env => match assoc n b with Some e => Some e | None => denotes env n end end.
Definition r_expr (env : senv) (e : sx) (j : nat) : option (cexpr * nat) := means (denotes env) x number e j.
Definition r_opt (env : senv) (e : option sx) (j : nat) : option (option cexpr * nat) :=
  match e with None => Some (None, j) | Some e => let* (c, j) := r_expr env e j in Some (Some c, j) end.
Definition r_const (env : senv) (e : sx) (j : nat) : option (Z * nat) := let* (c, j) := r_expr env e j in let* v := constant c in Some (v, j).
(** Objects can have these types *)
Fixpoint fixed (t : ty) : bool := match t with TVla _ => false | TPtr b | TArr b _ => fixed b | _ => true end.
Definition object_type (t : ty) : bool := match t with TVoid | TFunc _ => false | _ => (0 <=? size_of t) && fixed t end.
(** The objects of the body are numbered in the order of their declarators; [i]: the next one.
    A name is in scope from the end of its declarator (6.2.1p7), so in its initializer.
    Not here: two declarations of a name in a block; initializers other than of scalars *)
Definition r_declarator (base : ty) (d : dcl) (env : senv) (j i : nat) : option (act * senv * nat) :=
  let 'Dcl s n init := d in
  let t := Nat.iter s TPtr base in
  match env with
  | b :: up =>
      if object_type t && (match assoc n b with None => true | Some _ => false end) then
        let env := ((n, EVar (VLocal i) t None) :: b) :: up in
        match init with
        | None => Some (ANew (VLocal i) t None, env, j)
        | Some (DExpr e) => if scalar t then let* (c, j) := r_expr env e j in Some (ANew (VLocal i) t (Some c), env, j) else None
        | Some (DBrace _) => None
        end
      else None
  | [] => None
  end.
Fixpoint r_declarators (base : ty) (l : list dcl) (env : senv) (j i : nat) : option (list act * senv * nat * nat) :=
  match l with
  | [] => Some ([], env, j, i)
  | d :: l => let* (a, env, j) := r_declarator base d env j i in let* (r, env, j, i) := r_declarators base l env j (S i) in Some (a :: r, env, j, i)
  end.
Definition r_declaration (t : bytes) (l : list dcl) (env : senv) (j i : nat) : option (list act * senv * nat * nat) :=
  let* base := x_type x t in r_declarators base l env j i.
Definition r_first (f : finit) (env : senv) (j i : nat) : option (list act * senv * nat * nat) :=
  match f with
  | FNone => Some ([], env, j, i)
  | FExpr e => let* (c, j) := r_expr env e j in Some ([ADo c], env, j, i)
  | FDecl t l => r_declaration t l env j i
  end.
Definition acts (l : list act) : hstmt := match l with [] => HSkip | _ => HActs l end.

(** A block has a scope of its own; so has a for statement (6.8.5p5). (That other statements
    have one too makes no difference: only a block declares names.) *)
Fixpoint r_stmt (s : ss) (env : senv) (j i : nat) : option (hstmt * nat * nat) :=
  match s with
  | YEmpty => Some (HSkip, j, i)
  | YExpr e => let* (c, j) := r_expr env e j in Some (HActs [ADo c], j, i)
  | YBlock b => r_items b ([] :: env) j i
  | YIf c a => let* (c, j) := r_expr env c j in let* (a, j, i) := r_stmt a env j i in Some (HIf c a HSkip, j, i)
  | YIfElse c a b => let* (c, j) := r_expr env c j in let* (a, j, i) := r_stmt a env j i in let* (b, j, i) := r_stmt b env j i in Some (HIf c a b, j, i)
  | YSwitch c s => let* (c, j) := r_expr env c j in let* (s, j, i) := r_stmt s env j i in Some (HSwitch c s, j, i)
  | YCase lo hi s =>
      let* (a, j) := r_const env lo j in let* (b, j) := match hi with None => Some (a, j) | Some e => r_const env e j end in
      let* (s, j, i) := r_stmt s env j i in Some (HCase a b s, j, i)
  | YDefault s => let* (s, j, i) := r_stmt s env j i in Some (HDefault s, j, i)
  | YFor f c inc s =>
      let* (f, env, j, i) := r_first f ([] :: env) j i in let* (c, j) := r_opt env c j in let* (inc, j) := r_opt env inc j in
      let* (s, j, i) := r_stmt s env j i in Some (HFor f c inc s, j, i)
  | YWhile c s => let* (c, j) := r_expr env c j in let* (s, j, i) := r_stmt s env j i in Some (HWhile c s, j, i)
  | YDo s c => let* (s, j, i) := r_stmt s env j i in let* (c, j) := r_expr env c j in Some (HDo s c, j, i)
  | YAsm _ | YGotoP _ => None
  | YGoto l => Some (HGoto l, j, i)
  | YBreak => Some (HBreak, j, i)
  | YContinue => Some (HContinue, j, i)
  | YLabel l s => let* (s, j, i) := r_stmt s env j i in Some (HLabel l s, j, i)
  | YReturn e => let* (e, j) := r_opt env e j in Some (HReturn e, j, i)
  end
with r_items (b : items) (env : senv) (j i : nat) : option (hstmt * nat * nat) :=
  match b with
  | INil => Some (HSkip, j, i)
  | IStmt s r => let* (s, j, i) := r_stmt s env j i in let* (r, j, i) := r_items r env j i in Some (HSeq s r, j, i)
  | IDecl t l r => let* (l, env, j, i) := r_declaration t l env j i in let* (r, j, i) := r_items r env j i in Some (HSeq (acts l) r, j, i)
  end.
End Resolve.

(** ** Execution, as StmtSpec *)
Inductive hcont :=
  | HKStop
  | HKSeq (s : hstmt) (k : hcont)
  | HKHead (c inc : option cexpr) (b : hstmt) (k : hcont)
  | HKBody (c inc : option cexpr) (b : hstmt) (k : hcont)
  | HKDo (b : hstmt) (c : cexpr) (k : hcont)
  | HKSwitch (k : hcont).
Fixpoint h_case (t : ty) (v : Z) (s : hstmt) (k : hcont) : option (hstmt * hcont) :=
  match s with
  | HSeq a b => orelse (h_case t v a (HKSeq b k)) (h_case t v b k)
  | HIf _ a b => orelse (h_case t v a k) (h_case t v b k)
  | HCase lo hi s => if case_hit t lo hi v then Some (s, k) else h_case t v s k
  | HDefault s | HLabel _ s => h_case t v s k
  | HFor _ c inc b => h_case t v b (HKBody c inc b k)
  | HWhile c b => h_case t v b (HKBody (Some c) None b k)
  | HDo b c => h_case t v b (HKDo b c k)
  | _ => None
  end.
Fixpoint h_default (s : hstmt) (k : hcont) : option (hstmt * hcont) :=
  match s with
  | HSeq a b => orelse (h_default a (HKSeq b k)) (h_default b k)
  | HIf _ a b => orelse (h_default a k) (h_default b k)
  | HDefault s => Some (s, k)
  | HCase _ _ s | HLabel _ s => h_default s k
  | HFor _ c inc b => h_default b (HKBody c inc b k)
  | HWhile c b => h_default b (HKBody (Some c) None b k)
  | HDo b c => h_default b (HKDo b c k)
  | _ => None
  end.
Fixpoint h_label (l : bytes) (s : hstmt) (k : hcont) : option (hstmt * hcont) :=
  match s with
  | HSeq a b => orelse (h_label l a (HKSeq b k)) (h_label l b k)
  | HIf _ a b => orelse (h_label l a k) (h_label l b k)
  | HLabel l' s => if beq l l' then Some (s, k) else h_label l s k
  | HCase _ _ s | HDefault s => h_label l s k
  | HSwitch _ b => h_label l b (HKSwitch k)
  | HFor _ c inc b => h_label l b (HKBody c inc b k)
  | HWhile c b => h_label l b (HKBody (Some c) None b k)
  | HDo b c => h_label l b (HKDo b c k)
  | _ => None
  end.
Inductive hconf :=
  | HRun (s : hstmt) (k : hcont) (m : mem)
  | HReturned (v : option Z) (m : mem)
  | HFinished (m : mem).

Section Exec.
Variable addr : var -> Z.
Variable valid : Z -> bool.
Variable call : Z -> list ty -> ty -> list Z -> mem -> option (Z * mem).
Variable rt : ty.
Variable body : hstmt.
Notation value := (cev addr valid call false).
Definition htest (c : option cexpr) (m : mem) : option (bool * mem) :=
  match c with
  | None => Some (true, m)
  | Some c => if valued (ty_of c) then let* (v, m) := value c m in Some (truth v, m) else None
  end.
(** An object without initializer is indeterminate (6.7.9p10): here it has what is in its
    place; one with an initializer is too while that is evaluated: here it is 0 *)
Definition perform (a : act) (m : mem) : option mem :=
  match a with
  | ADo e => let* (_, m) := value e m in Some m
  | ANew _ _ None => Some m
  | ANew x t (Some e) =>
      if accessible valid (addr x) (size_of t) then let* (_, m) := value (CAssign (CVar x t) e) (le_store m (addr x) (size_of t) 0) in Some m else None
  end.
Fixpoint performs (l : list act) (m : mem) : option mem := match l with [] => Some m | a :: l => let* m := perform a m in performs l m end.

Definition hstep (s : hconf) : option hconf :=
  match s with
  | HReturned _ _ | HFinished _ => None
  | HRun s k m =>
      match s with
      | HSkip =>
          match k with
          | HKStop => Some (HFinished m)
          | HKSeq s k => Some (HRun s k m)
          | HKHead c inc b k => let* (t, m) := htest c m in Some (if t then HRun b (HKBody c inc b k) m else HRun HSkip k m)
          | HKBody c inc b k => let* m := performs (match inc with Some e => [ADo e] | None => [] end) m in Some (HRun HSkip (HKHead c inc b k) m)
          | HKDo b c k => let* (t, m) := htest (Some c) m in Some (if t then HRun b (HKDo b c k) m else HRun HSkip k m)
          | HKSwitch k => Some (HRun HSkip k m)
          end
      | HActs l => let* m := performs l m in Some (HRun HSkip k m)
      | HSeq a b => Some (HRun a (HKSeq b k) m)
      | HIf c a b => let* (t, m) := htest (Some c) m in Some (HRun (if t then a else b) k m)
      | HSwitch c b =>
          let* (v, m) := value c m in
          match orelse (h_case (ty_of c) v b (HKSwitch k)) (h_default b (HKSwitch k)) with
          | Some (s, k) => Some (HRun s k m)
          | None => Some (HRun HSkip k m)
          end
      | HCase _ _ s | HDefault s | HLabel _ s => Some (HRun s k m)
      | HFor init c inc b => let* m := performs init m in Some (HRun HSkip (HKHead c inc b k) m)
      | HWhile c b => Some (HRun HSkip (HKHead (Some c) None b k) m)
      | HDo b c => Some (HRun b (HKDo b c k) m)
      | HGoto l => let* (s, k) := h_label l body HKStop in Some (HRun s k m)
      | HBreak =>
          match k with
          | HKSeq _ k => Some (HRun HBreak k m)
          | HKBody _ _ _ k | HKDo _ _ k | HKSwitch k => Some (HRun HSkip k m)
          | HKStop | HKHead _ _ _ _ => None
          end
      | HContinue =>
          match k with
          | HKSeq _ k | HKSwitch k => Some (HRun HContinue k m)
          | HKBody _ _ _ _ | HKDo _ _ _ => Some (HRun HSkip k m)
          | HKStop | HKHead _ _ _ _ => None
          end
      | HReturn None => Some (HReturned None m)
      | HReturn (Some e) => let* (v, m) := value (CCast rt e) m in Some (HReturned (Some v) m)
      end
  end.
Inductive hsteps : hconf -> hconf -> Prop :=
  | hsteps_refl s : hsteps s s
  | hsteps_step s s1 s2 : hstep s = Some s1 -> hsteps s1 s2 -> hsteps s s2.
Definition h_forever (s : hconf) : Prop := forall s', hsteps s s' -> hstep s' <> None.
End Exec.

(** ** Which bodies *)
(** Well typed, without the forms C65 excludes; [proto]: and all the functions called have
    prototypes without [...] *)
Section Fine.
Variable proto : bool.
Definition fine (c : cexpr) : bool := plain c && match ctype c with Some _ => true | None => false end && (negb proto || prototyped c).
Definition fine_opt (c : option cexpr) : bool := match c with Some c => fine c | None => true end.
Definition fine_act (a : act) : bool := match a with ADo c => fine c | ANew _ _ None => true | ANew x t (Some c) => fine (CAssign (CVar x t) c) end.
Fixpoint fine_stmt (rt : ty) (s : hstmt) : bool :=
  match s with
  | HSkip | HGoto _ | HBreak | HContinue | HReturn None => true
  | HActs l => forallb fine_act l
  | HSeq a b => fine_stmt rt a && fine_stmt rt b
  | HIf c a b => fine c && fine_stmt rt a && fine_stmt rt b
  | HSwitch c s | HWhile c s | HDo s c => fine c && fine_stmt rt s
  | HCase _ _ s | HDefault s | HLabel _ s => fine_stmt rt s
  | HFor l c inc s => forallb fine_act l && fine_opt c && fine_opt inc && fine_stmt rt s
  | HReturn (Some c) => fine (CCast rt c)
  end.
End Fine.
(** The statement without its expressions, for [nested], [gotos] and [user_labels] *)
Fixpoint shape (s : hstmt) : stmt :=
  match s with
  | HSkip | HActs _ => SSkip
  | HSeq a b => SSeq (shape a) (shape b)
  | HIf _ a b => SIf NNull (shape a) (shape b)
  | HSwitch _ b => SSwitch NNull (shape b)
  | HCase lo hi s => SCase lo hi (shape s)
  | HDefault s => SDefault (shape s)
  | HFor _ _ _ b => SFor [] None None (shape b)
  | HWhile _ b => SWhile NNull (shape b)
  | HDo b _ => SDo (shape b) NNull
  | HGoto l => SGoto l
  | HBreak => SBreak
  | HContinue => SContinue
  | HLabel l s => SLabel l (shape s)
  | HReturn _ => SReturn None
  end.
(** Declarations and blocks, for the bound of C23 on what the tables of the compiler hold *)
Definition first_size (f : finit) : nat := match f with FDecl _ l => length l | _ => 0 end.
Fixpoint scope_size (s : ss) : nat :=
  match s with
  | YBlock b => 2 + items_size b
  | YIfElse _ a b => scope_size a + scope_size b
  | YFor f _ _ s => 2 + first_size f + scope_size s
  | YIf _ s | YSwitch _ s | YCase _ _ s | YDefault s | YWhile _ s | YDo s _ | YLabel _ s => scope_size s
  | _ => 0
  end%nat
with items_size (b : items) : nat :=
  match b with INil => 0 | IStmt s r => scope_size s + items_size r | IDecl _ l r => length l + items_size r end%nat.

(** Where the objects of the body are: object [i] is local variable [nth (i - k0) vs] *)
Definition moved (k0 : nat) (vs : list nat) (v : var) : var := match v with VLocal i => if Nat.ltb i k0 then v else VLocal (nth (i - k0) vs O) | _ => v end.
(** The other locals from [k0] to below [kN] are usable by the code, not by the program *)
Record others (addr : var -> Z) (valid all : Z -> bool) (k0 kN : nat) (vs : list nat) : Prop := {
  ot_sub : forall a, valid a = true -> all a = true;
  ot_rng : forall k, (k0 <= k < kN)%nat -> ~ In k vs -> 0 <= addr (VLocal k) /\ addr (VLocal k) + 8 <= 2 ^ 64;
  ot_all : forall k a, (k0 <= k < kN)%nat -> ~ In k vs -> addr (VLocal k) <= a < addr (VLocal k) + 8 -> all a = true /\ valid a = false;
  ot_apart : forall i j, (k0 <= i < kN)%nat -> (k0 <= j < kN)%nat -> ~ In i vs -> ~ In j vs -> i <> j -> addr (VLocal i) + 8 <= addr (VLocal j) \/ addr (VLocal j) + 8 <= addr (VLocal i) }.
(** The addresses that are neither the program's nor those of the temporaries *)
Definition aside (addr : var -> Z) (valid : Z -> bool) (k0 kN : nat) (vs : list nat) (a : Z) : Prop :=
  valid a = false /\ forall k, (k0 <= k < kN)%nat -> ~ In k vs -> ~ addr (VLocal k) <= a < addr (VLocal k) + 8.
(** What is known where the body of a function begins: the declarations before it (in them
    [next] entries), and the locals before it, its parameters, which are numbered below [k0] *)
Record before (ops : list ScopeModel.sop) (x : ctx) (number : bytes -> option (ty * Z)) (next : Z) (k0 : nat) : Prop := {
  be_source : source ops x number;
  be_next : forall n z, In (ScopeModel.OpVar n z) ops -> z < next;
  be_local : forall n p t s, declared ops x n = Some (EVar (VLocal p) t s) -> (p < k0)%nat }.
(** No jump without target, no case outside of a switch (as C60) *)
Definition jumps (s : hstmt) : Prop := StmtSpec.nested false false (shape s) = true /\ incl (gotos (shape s)) (user_labels (shape s)).
