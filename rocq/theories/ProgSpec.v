(** The meaning of a program: functions, their parameters and objects, and calls between
    them. *)
From Verif Require Import Base TypeModel IntArith NodeModel ValSpec NodeSpec StmtSpec ElabSpec ParseModel ParseSpec BlockModel BlockSpec FrontModel FrontSpec BodyModel BodySpec ProgModel.
From Verif Require FrameModel FunSpec.
Local Notation length := List.length.

(** ** Functions *)
(** Parameter [i] of [np] is the object number [np - 1 - i]; the objects of the body are
    numbered from [np + 1] on (number [np] is __alloca_size__). *)
Record hfun := HF { h_name : bytes; h_ret : ty; h_params : list ty; h_body : hstmt }.
Definition act_objects (a : act) : list (var * ty) := match a with ANew x t _ => [(x, t)] | ADo _ => [] end.
Fixpoint body_objects (s : hstmt) : list (var * ty) :=
  match s with
  | HActs l => flat_map act_objects l
  | HSeq a b | HIf _ a b => body_objects a ++ body_objects b
  | HSwitch _ s | HWhile _ s | HDo s _ | HCase _ _ s | HDefault s | HLabel _ s => body_objects s
  | HFor l _ _ s => flat_map act_objects l ++ body_objects s
  | _ => []
  end.
Definition param_number (np i : nat) : nat := (np - 1 - i)%nat.
Fixpoint param_objects (ts : list ty) : list (var * ty) := match ts with [] => [] | t :: ts => (VLocal (length ts), t) :: param_objects ts end.
Definition h_objects (f : hfun) : list (var * ty) := param_objects (h_params f) ++ body_objects (h_body f).

(** ** Which declarations make which functions *)
(** What the names mean in the body of a function, before its own declarations: the names
    every function has, its parameters, what is declared at file scope *)
Fixpoint param_names (ps : list (bytes * ty)) : list (bytes * ent) :=
  match ps with [] => [] | (n, t) :: ps => (n, EVar (VLocal (length ps)) t None) :: param_names ps end.
Definition own_names (x : ctx) (j : nat) (f : bytes) (np : nat) : list (bytes * ent) :=
  let str k := EVar (VGlobal (x_anon x k)) (TArr (TChar false) (Z.of_nat (length f) + 1)) None in
  [(bs "__FUNCTION__", str (S j)); (bs "__func__", str j); (bs "__alloca_size__", EVar (VLocal np) (TPtr (TChar false)) None)].
Definition fun_names (x : ctx) (j : nat) (f : bytes) (ps : list (bytes * ty)) (G : list (bytes * ent)) : list (bytes * ent) :=
  own_names x j f (length ps) ++ param_names ps ++ G.
(** A name is declared once, a function as often as one likes, always with the same type *)
Inductive declares (G : list (bytes * ent)) (n : bytes) (ret : ty) (ps : list ty) : list (bytes * ent) -> Prop :=
  | d_new : assoc n G = None -> declares G n ret ps ((n, func_ent n ret ps) :: G)
  | d_old : assoc n G = Some (func_ent n ret ps) -> declares G n ret ps G.
(** [j]: strings so far; the last argument: how many declarations and scopes there are *)
Inductive program (x : ctx) (number : bytes -> option (ty * Z)) : list (bytes * ent) -> nat -> list edecl -> list hfun -> nat -> Prop :=
  | p_end G j : program x number G j [] [] 0
  | p_var G j n t ds fs sz : assoc n G = None -> program x number ((n, EVar (VGlobal n) t None) :: G) j ds fs sz -> program x number G j (EdVar n t :: ds) fs (1 + sz)
  | p_proto G j n ret ps G' ds fs sz : declares G n ret ps G' -> program x number G' j ds fs sz -> program x number G j (EdProto n ret ps :: ds) fs (1 + sz)
  | p_fun G j n ret ps G' ts b hs j' i' ds fs sz : declares G n ret (map snd ps) G' ->
      blk C11 ts b -> (forall i, ~ In (KBrace i) ts) -> ~ In (KW WAsm) ts ->
      r_items (fun s => assoc s (fun_names x j n ps G')) x number b [[]] (S (S j)) (S (length ps)) = Some (hs, j', i') -> fine_stmt true ret hs = true ->
      program x number G' j' ds fs sz ->
      program x number G j (EdFun n ret ps (ts ++ [KP RBrace]) :: ds) (HF n ret (map snd ps) hs :: fs) (8 + length ps + items_size b + sz).

(** ** Calls *)
Definition occupies (addr : var -> Z) (o : var * ty) (a : Z) : Prop := addr (fst o) <= a < addr (fst o) + size_of (snd o).
Section Source.
Variable addr : bytes -> Z.      (* where the global objects and the functions are *)
Variable fs : list hfun.         (* the functions of the program *)
(** The objects of a call are somewhere where nothing is in use, apart from each other. *)
Definition h_placed (V : Z -> bool) (f : hfun) (at_ : var -> Z) : Prop :=
  (forall s, at_ (VGlobal s) = addr s) /\
  (forall o a, In o (h_objects f) -> occupies at_ o a -> 0 < a < 2 ^ 64 /\ V a = false) /\
  forall o o' a, In o (h_objects f) -> In o' (h_objects f) -> occupies at_ o a -> occupies at_ o' a -> o = o'.
Definition h_valid (V : Z -> bool) (f : hfun) (at_ : var -> Z) : Z -> bool :=
  fun a => V a || existsb (fun o => (at_ (fst o) <=? a) && (a <? at_ (fst o) + size_of (snd o))) (h_objects f).
Definition h_params_set (f : hfun) (at_ : var -> Z) (vs : list Z) (m : mem) : Prop :=
  forall i t v, nth_error (h_params f) i = Some t -> nth_error vs i = Some v ->
    le_load m (at_ (VLocal (param_number (length (h_params f)) i))) (Z.to_nat (size_of t)) = v mod 2 ^ (8 * size_of t).
Inductive h_result (f : hfun) : hconf -> Z -> mem -> Prop :=
  | h_value v m : h_result f (HReturned (Some v) m) v m
  | h_void v m : h_ret f = TVoid -> h_result f (HReturned None m) v m
  | h_end v m : h_ret f = TVoid -> h_result f (HFinished m) v m
  | h_main m : h_name f = bs "main" -> h_result f (HFinished m) 0 m.
(** What a call does depends on the memory in use only. *)
Definition on_valid (V : Z -> bool) (call : Z -> list ty -> ty -> list Z -> mem -> option (Z * mem)) : Prop :=
  forall fa tys t vs m m2 v m', call fa tys t vs m = Some (v, m') -> FunSpec.agree V m m2 -> exists m2', call fa tys t vs m2 = Some (v, m2') /\ FunSpec.agree V m' m2'.
(** [h_returns n V f vs m v m']: with the addresses [V] in use and memory [m], a call of [f]
    with arguments [vs] returns [v] and leaves [m'] in [V], at most [n] calls active at a time;
    wherever the objects of the call are and whatever they contain at first. *)
Fixpoint h_returns (n : nat) (V : Z -> bool) (f : hfun) (vs : list Z) (m : mem) (v : Z) (m' : mem) : Prop :=
  match n with
  | O => False
  | S n =>
      forall at_, h_placed V f at_ ->
      exists call, on_valid (h_valid V f at_) call /\
        (forall fa tys t vs m v m', call fa tys t vs m = Some (v, m') ->
           exists g, In g fs /\ addr (h_name g) = fa /\ tys = h_params g /\ t = h_ret g /\ length vs = length tys /\ h_returns n (h_valid V f at_) g vs m v m') /\
        forall m0, FunSpec.agree V m m0 -> h_params_set f at_ vs m0 ->
          exists c m1, hsteps at_ (h_valid V f at_) call (h_ret f) (h_body f) (HRun (h_body f) HKStop m0) c /\ h_result f c v m1 /\ FunSpec.agree V m1 m'
  end.
End Source.
