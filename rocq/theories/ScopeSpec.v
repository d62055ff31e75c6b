(** What scopes, tentative definitions and dead functions must be. *)
From Verif Require Import Base ScopeModel.

(** ** C23: the most recent declaration of the name that is not in a block already left.
    [l]: the operations, the last one first; [k]: blocks to skip. *)
Fixpoint visible (decl : sop -> option Z) (k : nat) (l : list sop) : option Z :=
  match l with
  | [] => None
  | OpLeave :: r => visible decl (S k) r
  | OpEnter :: r => visible decl (pred k) r
  | o :: r => if Nat.eqb k 0 then match decl o with Some v => Some v | None => visible decl k r end else visible decl k r
  end.
Definition declares_var (n : bytes) (o : sop) : option Z := match o with OpVar m v => if beq m n then Some v else None | _ => None end.
Definition declares_tag (n : bytes) (o : sop) : option Z := match o with OpTag m v => if beq m n then Some v else None | _ => None end.
(** Blocks are properly nested from the beginning: [d] blocks are open *)
Fixpoint nested (l : list sop) (d : nat) : bool :=
  match l with
  | [] => true
  | OpEnter :: r => nested r (S d)
  | OpLeave :: r => match d with O => false | S d => nested r d end
  | _ :: r => nested r d
  end.
Fixpoint depth (l : list sop) (d : nat) : nat :=
  match l with
  | [] => d
  | OpEnter :: r => depth r (S d)
  | OpLeave :: r => depth r (pred d)
  | _ :: r => depth r d
  end.
(** A block: everything declared inside, and nothing left open *)
Definition block (l : list sop) : Prop := nested l 0 = true /\ depth l 0 = 0%nat.
(** Declarations at file level. [d]: open blocks *)
Fixpoint file_level (n : bytes) (l : list sop) (d : nat) (found : option Z) : option Z :=
  match l with
  | [] => found
  | OpEnter :: r => file_level n r (S d) found
  | OpLeave :: r => file_level n r (pred d) found
  | OpVar m v :: r => file_level n r d (if Nat.eqb d 0 && beq m n then Some v else found)
  | _ :: r => file_level n r d found
  end.

(** ** C25 *)
Definition defines_as (objs : list gobj) (n : bytes) (tent : bool) (i : nat) : Prop :=
  exists o, nth_error objs i = Some o /\ g_name o = n /\ g_def o = true /\ g_tent o = tent.
Definition defines (objs : list gobj) (n : bytes) (i : nat) : Prop := exists t, defines_as objs n t i.
(** Objects declared by declarations of global variables: a tentative one is a definition *)
Definition consistent (objs : list gobj) : Prop := Forall (fun o => g_tent o = true -> g_def o = true) objs.

(** ** C24 *)
(** [f] is defined with a body that names [g] *)
Definition names (l : list fev) (f g : bytes) : Prop := exists st il ext refs, In (FDecl f st il ext (Some refs)) l /\ In g refs.
Definition is_defined (l : list fev) (f : bytes) : Prop := exists st il ext refs, In (FDecl f st il ext (Some refs)) l.
(** The first declaration of [f] *)
Fixpoint first_decl (l : list fev) (f : bytes) : option (bool * bool * bool) :=
  match l with
  | [] => None
  | FDecl n st il ext _ :: r => if beq n f then Some (st, il, ext) else first_decl r f
  | FInit _ :: r => first_decl r f
  end.
(** static inline, or inline without extern *)
Definition internal_inline (l : list fev) (f : bytes) : bool :=
  match first_decl l f with Some (st, il, ext) => il && (st || negb ext) | None => false end.
(** Functions that must be emitted: those that are not static inline, those named in an
    initializer, and those named by one that must be emitted *)
Inductive needed (l : list fev) : bytes -> Prop :=
  | needed_root f x : first_decl l f = Some x -> internal_inline l f = false -> needed l f
  | needed_init f : In (FInit f) l -> needed l f
  | needed_ref f g : needed l f -> names l f g -> needed l g.
