(** The meaning of functions and of calls between them, and what it means for a
    compiled program to implement it. *)
From Verif Require RvSpec.
From Verif Require Import Base TypeModel IntArith NodeModel ValSpec NodeSpec GenSpec StmtSpec FrameModel FrameSpec.

(** The objects of a call: its parameters and variables, at [fp] plus their offsets
    (__alloca_size__ is not an object of the program). *)
Definition objects (f : func) (offs : list Z) : list (Z * Z) :=
  let l := combine offs (map (fun v => size_of (v_ty v)) (f_locals f)) in
  firstn (bottom_ix f) l ++ skipn (S (bottom_ix f)) l.
Definition in_frame (f : func) (offs : list Z) (fp a : Z) : bool :=
  existsb (fun x => (fp + fst x <=? a) && (a <? fp + fst x + snd x)) (objects f offs).

Section Source.
Variable addr : bytes -> Z.      (* where the global objects and the functions are *)
Variable fs : list func.         (* the function definitions *)

Definition agree (V : Z -> bool) (m m' : mem) : Prop := forall a, V a = true -> m a = m' a.
(** What the body of [f] sees: the addresses [V] that were in use before, and its own objects. *)
Definition fun_valid (V : Z -> bool) (f : func) (offs : list Z) (fp : Z) : Z -> bool := fun a => V a || in_frame f offs fp a.
Definition fun_env (V : Z -> bool) (f : func) (offs : list Z) (fp : Z) (call : Z -> list ty -> ty -> list Z -> mem -> option (Z * mem)) : env :=
  Env (fun x => match x with VGlobal s => addr s | VLocal k => (fp + nth k offs 0) mod 2 ^ 64 end) (fun_valid V f offs fp) call.
(** Bytes of the parameters on the stack *)
Definition stack_args (n : nat) : Z := 8 * Z.of_nat (n - 8).
(** The frame is somewhere where nothing is in use. *)
Definition placed (V : Z -> bool) (f : func) (size fp : Z) : Prop :=
  0 < fp - size /\ fp + 16 + stack_args (List.length (f_params f)) < 2 ^ 64 /\
  forall a, fp - size <= a < fp + 16 + stack_args (List.length (f_params f)) -> V a = false.
Definition params_set (f : func) (offs : list Z) (fp : Z) (vs : list Z) (m : mem) : Prop :=
  forall i v x, nth_error (f_params f) i = Some v -> nth_error vs i = Some x ->
    le_load m (fp + nth (param_ix f + i) offs 0) (Z.to_nat (size_of (v_ty v))) = x mod 2 ^ (8 * size_of (v_ty v)).
(** How a call can end: a return statement with a value, the end of a void function or a
    return statement without a value in it, the end of main (C11 5.1.2.2.3). *)
Inductive fun_result (f : func) : conf -> Z -> mem -> Prop :=
  | res_value v m : fun_result f (Returned (Some v) m) v m
  | res_void v m : f_ret f = TVoid -> fun_result f (Returned None m) v m
  | res_end v m : f_ret f = TVoid -> fun_result f (Finished m) v m
  | res_main m : f_name f = bs "main" -> fun_result f (Finished m) 0 m.

(** [returns n V f vs m v m']: with the addresses [V] in use and memory [m], a call of [f] with
    arguments [vs] returns [v] and leaves [m'], and at most [n] calls are active at a time;
    whatever unused addresses the objects of the call are given and whatever they contain
    at first. *)
Fixpoint returns (n : nat) (V : Z -> bool) (f : func) (vs : list Z) (m : mem) (v : Z) (m' : mem) : Prop :=
  match n with
  | O => False
  | S n =>
      exists offs size, frame f = Some (offs, size) /\
      forall fp, placed V f size fp ->
      exists call,
        (forall fa tys t vs m v m', call fa tys t vs m = Some (v, m') ->
           exists g, In g fs /\ addr (f_name g) = fa /\ tys = map v_ty (f_params g) /\ t = f_ret g /\ List.length vs = List.length tys /\
             returns n (fun_valid V f offs fp) g vs m v m') /\
        forall m0, agree V m m0 -> params_set f offs fp vs m0 ->
          exists c m1, ssteps (fun_env V f offs fp call) (f_ret f) (f_body f) (Run (f_body f) KStop m0) c /\ fun_result f c v m1 /\ agree V m1 m'
  end.
(** What the functions of an environment do is what their bodies do. *)
Definition calls_are (n : nat) (E : env) : Prop :=
  forall fa tys t vs m v m', e_call E fa tys t vs m = Some (v, m') ->
    exists g, In g fs /\ addr (f_name g) = fa /\ tys = map v_ty (f_params g) /\ t = f_ret g /\ List.length vs = List.length tys /\
      returns n (e_valid E) g vs m v m'.
End Source.

(** ** Which functions *)
(** [cost]: stack for one call *)
Record fun_ok (slots cost : Z) (f : func) : Prop := {
  fo_body : stmt_ok (f_ret f) slots (f_body f) = true;
  fo_labels : NoDup (user_labels (f_body f));
  fo_vars : Forall lvar_ok (f_locals f);
  fo_params : Forall (fun v => int_repr (v_ty v) <> None) (f_params f);
  fo_cost : forall offs size, frame f = Some (offs, size) -> 24 + size + 8 * slots <= cost;
}.
(** The program is in memory. *)
Record loaded (W : RvSpec.world) (addr : bytes -> Z) (p : RvSpec.prog) : Prop := {
  ld_sym : forall s, RvSpec.w_sym W s = addr s /\ 0 <= addr s < 2 ^ 64;
  ld_at : forall k, (k <= List.length p)%nat -> 0 <= RvSpec.w_at W k < 2 ^ 64 /\ RvSpec.w_code W (RvSpec.w_at W k) = Some k;
  ld_fun : forall s k, nth_error p k = Some (RvSpec.ILabel s) -> RvSpec.w_code W (addr s) = Some k;
}.
(** Identifiers have no dot. *)
Definition dot_free (l : bytes) : Prop := ~ In 46 l.
(** The machine has just jumped to the function that starts at [k], to return to [kr]: the
    arguments are in place, [bytes] of stack below [lo] are unused. *)
Record entered (W : RvSpec.world) (p : RvSpec.prog) (V : Z -> bool) (f : func) (vs : list Z) (m : mem) (bytes : Z) (kr : nat) (s : RvSpec.state) : Prop := {
  en_at : nth_error p (RvSpec.pc s) = Some (RvSpec.ILabel (f_name f));
  en_regs : regs_ok (RvSpec.rg s);
  en_ra : RvSpec.rg s RvSpec.Ra = RvSpec.w_at W kr /\ (kr <= List.length p)%nat;
  en_args : forall i t x, nth_error (f_params f) i = Some t -> nth_error vs i = Some x -> rep (8 * size_of (v_ty t)) x (arg_at (RvSpec.rg s) (RvSpec.mm s) i);
  en_mem : agree V m (RvSpec.mm s);
  en_stack : bytes <= RvSpec.rg s RvSpec.Sp /\ RvSpec.rg s RvSpec.Sp + stack_args (List.length (f_params f)) < 2 ^ 64 /\
    forall a, RvSpec.rg s RvSpec.Sp - bytes <= a < RvSpec.rg s RvSpec.Sp + stack_args (List.length (f_params f)) -> V a = false;
}.
(** It has returned [v]. *)
Record left_with (V : Z -> bool) (f : func) (v : Z) (m' : mem) (kr : nat) (s s' : RvSpec.state) : Prop := {
  lw_pc : RvSpec.pc s' = kr;
  lw_value : rep (ret_bits (f_ret f)) v (RvSpec.rg s' (RvSpec.A 0));
  lw_regs : regs_ok (RvSpec.rg s') /\ RvSpec.rg s' RvSpec.Sp = RvSpec.rg s RvSpec.Sp /\ RvSpec.rg s' RvSpec.Fp = RvSpec.rg s RvSpec.Fp;
  lw_mem : agree V m' (RvSpec.mm s');
  lw_stack : forall a, V a = false -> RvSpec.rg s RvSpec.Sp + stack_args (List.length (f_params f)) <= a -> RvSpec.mm s' a = RvSpec.mm s a;
}.
