(** Model of /repo/parser/scope.c: scopes, and the two passes at the end of parsing: dead
    static inline functions (parser.c mark_live) and tentative definitions (scan_globals). *)
From Verif Require Import Base HashMapModel.

(** ** Scopes *)
(** scope.h struct Scope: two hash tables; what they hold (struct VarScope, struct Type) is
    a number here. The list is the chain of [next], innermost first. *)
Record scope := Scope { sc_vars : hmap Z; sc_tags : hmap Z }.
Definition new_scope : scope := Scope empty_map empty_map.     (* calloc *)
Definition chain := list scope.
Definition chain0 : chain := [new_scope].                      (* scope.c:33 *)
(** The calls that change the scopes *)
Inductive sop := OpEnter | OpLeave | OpVar (name : bytes) (v : Z) | OpTag (name : bytes) (t : Z).
(** [SUb]: the NULL scope is used; [SMap]: the hash table does not return normally *)
Inductive sres (A : Type) := SOk (a : A) | SUb | SMap.
Arguments SOk {A} a. Arguments SUb {A}. Arguments SMap {A}.
(** scope.c:35-46 enter_scope, leave_scope; 93-104 push_tag_scope, push_scope *)
Definition do_sop (o : sop) (c : chain) : sres chain :=
  match o with
  | OpEnter => SOk (new_scope :: c)
  | OpLeave => match c with [] => SUb | _ :: r => SOk r end
  | OpVar n v =>
      match c with
      | [] => SUb
      | s :: r => match hashmap_put (sc_vars s) n v with Ok m => SOk (Scope m (sc_tags s) :: r) | _ => SMap end
      end
  | OpTag n t =>
      match c with
      | [] => SUb
      | s :: r => match hashmap_put (sc_tags s) n t with Ok m => SOk (Scope (sc_vars s) m :: r) | _ => SMap end
      end
  end.
Fixpoint do_sops (l : list sop) (c : chain) : sres chain :=
  match l with
  | [] => SOk c
  | o :: r => match do_sop o c with SOk c => do_sops r c | SUb => SUb | SMap => SMap end
  end.
(** scope.c:48-57 find_var *)
Fixpoint find_var (c : chain) (n : bytes) : sres (option Z) :=
  match c with
  | [] => SOk None
  | s :: r => match hashmap_get (sc_vars s) n with Ok (Some v) => SOk (Some v) | Ok None => find_var r n | _ => SMap end
  end.
(** scope.c:59-67 find_tag *)
Fixpoint find_tag (c : chain) (n : bytes) : sres (option Z) :=
  match c with
  | [] => SOk None
  | s :: r => match hashmap_get (sc_tags s) n with Ok (Some v) => SOk (Some v) | Ok None => find_tag r n | _ => SMap end
  end.
(** scope.c:69-82 find_func, without the test that what is found is a function *)
Definition find_file (c : chain) (n : bytes) : sres (option Z) :=
  match rev c with
  | [] => SUb
  | s :: _ => match hashmap_get (sc_vars s) n with Ok v => SOk v | _ => SMap end
  end.
(** scope.c:84-91 overwrite_tag looks in the innermost scope only *)
Definition find_tag_here (c : chain) (n : bytes) : sres (option Z) :=
  match c with
  | [] => SUb
  | s :: _ => match hashmap_get (sc_tags s) n with Ok v => SOk v | _ => SMap end
  end.

(** ** Tentative definitions *)
(** toycc.h struct Obj: what scan_globals looks at *)
Record gobj := GObj { g_name : bytes; g_def : bool; g_tent : bool }.
(** parser.c:1528-1541 global_variable: is_definition and is_tentative *)
Definition global_variable (name : bytes) (ext tls init : bool) : gobj :=
  GObj name (negb ext) (negb init && negb ext && negb tls).
(** The list of globals is in memory: object [i] is the [i]-th of the list at the beginning,
    its next pointer is [nx i], and NULL is the number of objects. *)
Section Scan.
Variable objs : list gobj.
Let null := List.length objs.
Definition upd_next (nx : nat -> nat) (i j : nat) : nat -> nat := fun k => if Nat.eqb k i then j else nx k.
(** scope.c:172-176 is there another definition of the same identifier? [ModelFuel] as None *)
Fixpoint other_def (fuel : nat) (nx : nat -> nat) (self : nat) (o : gobj) (i : nat) : option bool :=
  match fuel with
  | O => None
  | S fuel =>
      match nth_error objs i with
      | None => Some false
      | Some o2 => if negb (Nat.eqb i self) && g_def o2 && beq (g_name o) (g_name o2) then Some true else other_def fuel nx self o (nx i)
      end
  end.
(** scope.c:165-187: [cur] is None for &head; [hd] is head.next *)
Fixpoint scan (fuel : nat) (nx : nat -> nat) (hd : nat) (cur : option nat) (var : nat) : option (nat * (nat -> nat)) :=
  match fuel with
  | O => None
  | S fuel =>
      match nth_error objs var with
      | None => Some (match cur with None => (null, nx) | Some c => (hd, upd_next nx c null) end)
      | Some o =>
          let keep := match cur with
                      | None => scan fuel nx var (Some var) (nx var)
                      | Some c => let nx := upd_next nx c var in scan fuel nx hd (Some var) (nx var)
                      end in
          if negb (g_tent o) then keep
          else match other_def (S (S null)) nx var o 0 with
               | None => None
               | Some true => scan fuel nx hd cur (nx var)
               | Some false => keep
               end
      end
  end.
(** The list from [i] *)
Fixpoint collect (fuel : nat) (nx : nat -> nat) (i : nat) : option (list nat) :=
  match fuel with
  | O => None
  | S fuel => if Nat.leb null i then Some [] else match collect fuel nx (nx i) with Some l => Some (i :: l) | None => None end
  end.
Definition scan_globals : option (list nat) :=
  match scan (S (S null)) S null None 0 with
  | Some (hd, nx) => collect (S (S null)) nx hd
  | None => None
  end.
End Scan.

(** ** Dead functions *)
(** What the parser sees at file level: declarations and definitions of functions, with the
    functions named in the body, and functions named in initializers of global variables *)
Inductive fev :=
  | FDecl (name : bytes) (st il ext : bool) (body : option (list bytes))
  | FInit (name : bytes).
(** toycc.h struct Obj of a function *)
Record fobj := FObj { f_name : bytes; f_static : bool; f_inline : bool; f_def : bool; f_root : bool; f_refs : list bytes }.
Definition find_fn (fs : list fobj) (n : bytes) : option fobj := find (fun f => beq (f_name f) n) fs.
Definition upd_fn (n : bytes) (g : fobj -> fobj) (fs : list fobj) : list fobj := map (fun f => if beq (f_name f) n then g f else f) fs.
(** parser.c:261-266: a function is named in the source. [cur] is current_fn, which is not
    reset at the end of a function. None: the function is not declared. *)
Definition name_fn (n : bytes) (cur : option bytes) (fs : list fobj) : option (list fobj) :=
  match find_fn fs n with
  | None => None
  | Some _ =>
      Some (match cur with
            | Some c => upd_fn c (fun f => FObj (f_name f) (f_static f) (f_inline f) (f_def f) (f_root f) (f_refs f ++ [n])) fs
            | None => upd_fn n (fun f => FObj (f_name f) (f_static f) (f_inline f) (f_def f) true (f_refs f)) fs
            end)
  end.
Fixpoint name_fns (l : list bytes) (cur : option bytes) (fs : list fobj) : option (list fobj) :=
  match l with
  | [] => Some fs
  | n :: r => match name_fn n cur fs with Some fs => name_fns r cur fs | None => None end
  end.
(** parser.c:1439-1470 the beginning of function(); None: an error is reported *)
Definition declare_fn (n : bytes) (st il ext isdef : bool) (fs : list fobj) : option (list fobj) :=
  match find_fn fs n with
  | Some f =>
      if f_def f && isdef then None
      else if negb (f_static f) && st then None
      else Some (upd_fn n (fun f => FObj (f_name f) (f_static f) (f_inline f) (f_def f || isdef) (negb (f_static f && f_inline f)) (f_refs f)) fs)
  | None =>
      let s := st || (il && negb ext) in
      Some (FObj n s il isdef (negb (s && il)) [] :: fs)
  end.
Fixpoint declare_all (l : list fev) (cur : option bytes) (fs : list fobj) : option (list fobj) :=
  match l with
  | [] => Some fs
  | FDecl n st il ext None :: r =>
      match declare_fn n st il ext false fs with Some fs => declare_all r cur fs | None => None end
  | FDecl n st il ext (Some refs) :: r =>
      match declare_fn n st il ext true fs with
      | None => None
      | Some fs => match name_fns refs (Some n) fs with Some fs => declare_all r (Some n) fs | None => None end
      end
  | FInit n :: r => match name_fn n cur fs with Some fs => declare_all r cur fs | None => None end
  end.
(** parser.c:1425-1437 mark_live; [live]: the functions with is_live set. None: model fuel *)
Fixpoint mark_live (fuel : nat) (fs : list fobj) (live : list bytes) (f : fobj) : option (list bytes) :=
  match fuel with
  | O => None
  | S fuel =>
      if existsb (beq (f_name f)) live then Some live
      else
        (fix go (l : list bytes) (live : list bytes) : option (list bytes) :=
           match l with
           | [] => Some live
           | n :: r =>
               match find_fn fs n with
               | Some g => match mark_live fuel fs live g with Some live => go r live | None => None end
               | None => go r live
               end
           end) (f_refs f) (f_name f :: live)
  end.
(** parser.c:1617-1619 *)
Fixpoint mark_roots (fuel : nat) (fs l : list fobj) (live : list bytes) : option (list bytes) :=
  match l with
  | [] => Some live
  | f :: r => if f_root f then match mark_live fuel fs live f with Some live => mark_roots fuel fs r live | None => None end else mark_roots fuel fs r live
  end.
(** The functions for which emit_text (codegen.c:2012-2020) emits code *)
Definition emitted (l : list fev) : option (list bytes) :=
  match declare_all l None [] with
  | None => None
  | Some fs =>
      match mark_roots (S (S (List.length fs))) fs fs [] with
      | None => None
      | Some live => Some (map f_name (filter (fun f => f_def f && existsb (beq (f_name f)) live) fs))
      end
  end.
