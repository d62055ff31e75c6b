(** Model of stack frames and of the calling sequence: assign_lvar_offsets, store_args,
    push_args and emit_text of /repo/codegen.c. *)
From Verif Require Import Base TypeModel LayoutModel IntArith NodeModel ValSpec RvSpec GenModel StmtSpec StmtModel.

(** ** Frames *)
(** struct Obj, a local variable: var->ty and var->align *)
Record lvar := LV { v_ty : ty; v_align : Z }.
Definition max_regs : nat := 8.                                  (* MAX_ARG_REGS, codegen.c:35 *)
Definition is_float_arg (t : ty) : bool := match t with TFloat | TDouble => true | _ => false end.

(** codegen.c:1820-1874, the loop over fn->params: var->offset of each (0 if it is passed in
    registers) and the last value of top. None: a diagnostic or int overflow. *)
Fixpoint param_offsets (top : Z) (g f : nat) (ps : list ty) : option (list Z * Z) :=
  match ps with
  | [] => Some ([], top)
  | t :: ps =>
      let in_regs g f := let* (l, top) := param_offsets top g f ps in Some (0 :: l, top) in
      let on_stack g f :=
        let* o := align_to top 8 in
        let* top := chk (o + size_of t) in
        let* (l, top) := param_offsets top g f ps in Some (o :: l, top) in
      if is_struct_union t then
        let* sz := align_to (size_of t) 8 in
        let n := Z.to_nat (sz / 8) in
        if Nat.leb n 2 then
          if Nat.leb (g + n) max_regs then in_regs (g + n)%nat f
          else if Nat.eqb (g + 1) max_regs then None
          else on_stack g f
        else on_stack (if Nat.ltb g max_regs then g + 1 else g)%nat f
      else if is_float_arg t then
        if Nat.ltb f max_regs then in_regs g (f + 1)%nat
        else if Nat.ltb g max_regs then in_regs (g + 1)%nat f
        else on_stack g f
      else
        match t with
        | TLDouble =>
            if Nat.leb (g + 2) max_regs then in_regs (g + 2)%nat f
            else if Nat.eqb (g + 1) max_regs then None
            else on_stack g f
        | _ => if Nat.ltb g max_regs then in_regs (g + 1)%nat f else on_stack g f
        end
  end.
(** codegen.c:1876-1887, the loop over fn->locals; the offset of each is given with it *)
Fixpoint local_offsets (bottom : Z) (vs : list (lvar * Z)) : option (list Z * Z) :=
  match vs with
  | [] => Some ([], bottom)
  | (v, o) :: vs =>
      if negb (o =? 0) then let* (l, b) := local_offsets bottom vs in Some (o :: l, b)
      else
        let* b := chk (bottom + size_of (v_ty v)) in
        let* b := align_to b (v_align v) in
        let* (l, b') := local_offsets b vs in Some (- b :: l, b')
  end.

(** A function definition after parsing (parser.c:1472-1511). new_lvar puts a variable in
    front of the list, so fn->locals is the variables of the body (the last one declared
    first), __alloca_size__, __va_area__ if the function is variadic, the parameters.
    [f_vars]: the first of these. *)
Record func := Func {
  f_name : bytes;
  f_ret : ty;
  f_params : list lvar;
  f_variadic : bool;
  f_vars : list lvar;
  f_body : stmt;
}.
Definition plain (t : ty) : lvar := LV t (align_of t).
Definition alloca_var : lvar := plain (TPtr (TChar false)).
Definition va_var : lvar := plain (TArr (TChar false) 0).
Definition f_locals (f : func) : list lvar :=
  f_vars f ++ [alloca_var] ++ (if f_variadic f then [va_var] else []) ++ f_params f.
(** Positions of __alloca_size__ and of the first parameter in fn->locals *)
Definition bottom_ix (f : func) : nat := List.length (f_vars f).
Definition param_ix (f : func) : nat := (S (bottom_ix f) + (if f_variadic f then 1 else 0))%nat.

(** codegen.c:1799-1889 assign_lvar_offsets for one function: the offsets of fn->locals and
    fn->stack_size *)
Definition frame (f : func) : option (list Z * Z) :=
  let* (po, top) := param_offsets 16 0 0 (map v_ty (f_params f)) in
  let* va := (if f_variadic f then let* o := align_to top 8 in Some [o] else Some []) in
  let* (l, b) := local_offsets 0 (combine (f_locals f) (map (fun _ => 0) (f_vars f) ++ [0] ++ va ++ po)) in
  let* sz := align_to b 8 in
  Some (l, sz).

(** ** Argument passing, both sides, as words of 8 bytes *)
(** [AW i k]: word [k] of the argument or parameter [i]; [AP i]: a pointer to the copy of
    argument [i]; [Pad]: nothing *)
Inductive aword := AW (i k : nat) | AP (i : nat) | Pad.
Inductive akind := KInt | KFlt | KLd | KAgg (n : nat).           (* n words *)
Definition akind_of (t : ty) : akind :=
  if is_struct_union t then KAgg (Z.to_nat ((size_of t + 7) / 8))
  else if is_float_arg t then KFlt else match t with TLDouble => KLd | _ => KInt end.
Definition words (i n : nat) : list aword := map (AW i) (seq 0 n).
(** Registers: integer a0-a7 and floating fa0-fa7 *)
Inductive areg := GReg (n : nat) | FReg (n : nat).

(** codegen.c:788-869, the loop of push_args: which arguments get pass_by_stack. The hidden
    pointer to the result buffer (783-786) is an argument of kind [KInt] in front. [v]: the
    number of arguments that have a parameter; the others are variadic. *)
Fixpoint by_stack (v g f : nat) (ks : list akind) : list bool :=
  match ks with
  | [] => []
  | k :: ks =>
      let int_ v := if Nat.ltb g max_regs then false :: by_stack v (g + 1) f ks else true :: by_stack v g f ks in
      match v with
      | O => int_ O
      | S v =>
          match k with
          | KAgg n => false :: by_stack v (if Nat.leb n 2 then Nat.min (g + n) (Nat.max g max_regs) else if Nat.ltb g max_regs then g + 1 else g) f ks
          | KFlt => if Nat.ltb f max_regs then false :: by_stack v g (f + 1) ks else int_ v
          | KLd => false :: by_stack v (Nat.min (g + 2) (Nat.max g max_regs)) f ks
          | KInt => int_ v
          end
      end
  end.
(** codegen.c:647-673 push_struct, 676-710 push_args2: the words an argument pushes, the first
    one on top *)
Definition pushed (i : nat) (k : akind) : list aword :=
  match k with
  | KAgg n => if Nat.leb n 2 then words i n else [AP i]
  | KLd => words i 2
  | _ => words i 1
  end.
Fixpoint pushed_in (pass : bool) (i : nat) (ks : list akind) (bs : list bool) : list aword :=
  match ks, bs with
  | k :: ks, b :: bs => (if Bool.eqb b pass then pushed i k else []) ++ pushed_in pass (S i) ks bs
  | _, _ => []
  end.
(** The copies of big structs, above everything pushed (654-672, 877-880) *)
Fixpoint copies (i : nat) (ks : list akind) : list aword :=
  match ks with
  | [] => []
  | KAgg n :: ks => (if Nat.leb n 2 then [] else words i n) ++ copies (S i) ks
  | _ :: ks => copies (S i) ks
  end.
(** The stack when everything is pushed, from sp upwards *)
Definition call_stack (v : nat) (ks : list akind) : list aword :=
  let b := by_stack v 0 0 ks in pushed_in false 0 ks b ++ pushed_in true 0 ks b ++ copies 0 ks.
(** codegen.c:1227-1288: the pops before the call. The result: the registers that are loaded,
    and the stack at the call. *)
Fixpoint pop_n (n : nat) (g : nat) (st : list aword) : list (areg * aword) * nat * list aword :=
  match n with
  | O => ([], g, st)
  | S n =>
      if Nat.ltb g max_regs then
        match st with
        | w :: st => let '(l, g', st') := pop_n n (g + 1) st in ((GReg g, w) :: l, g', st')
        | [] => ([], g, [])
        end
      else ([], g, st)
  end.
Fixpoint pop_args (v g f : nat) (ks : list akind) (st : list aword) : list (areg * aword) * list aword :=
  match ks with
  | [] => ([], st)
  | k :: ks =>
      let regs v n g0 := let '(l, g', st') := pop_n n g0 st in let (l', st'') := pop_args v g' f ks st' in (l ++ l', st'') in
      match v with
      | O => match k with
             | KLd => if Nat.ltb g max_regs then regs O 2%nat (if Nat.even g then g else g + 1)%nat else pop_args O g f ks st
             | _ => regs O 1%nat g
             end
      | S v =>
          match k with
          | KAgg n => regs v (if Nat.leb n 2 then n else 1)%nat g
          | KFlt =>
              if Nat.ltb f max_regs
              then match st with
                   | w :: st' => let (l', st'') := pop_args v g (f + 1) ks st' in ((FReg f, w) :: l', st'')
                   | [] => ([], [])
                   end
              else regs v 1%nat g
          | KLd => regs v 2%nat g
          | KInt => regs v 1%nat g
          end
      end
  end.
Definition at_call (v : nat) (ks : list akind) : list (areg * aword) * list aword := pop_args v 0 0 ks (call_stack v ks).

(** Where the callee takes the words of its parameters from: codegen.c:2063-2096, with the
    offsets of [param_offsets]. A stack location is an offset from sp at the call (fp + 16
    unless the function is variadic and some registers are left for the arguments). *)
Inductive aloc := InReg (r : areg) | OnStack (off : Z).
Fixpoint taken (g f : nat) (ps : list (ty * Z)) : list (list aloc) :=
  match ps with
  | [] => []
  | (t, off) :: ps =>
      if 0 <? off then
        map (fun k => OnStack (off - 16 + 8 * Z.of_nat k)) (seq 0 (Z.to_nat ((size_of t + 7) / 8))) ::
        taken (if Nat.ltb g max_regs then g + 1 else g)%nat f ps
      else if is_struct_union t then
        (* store_args(g_arg++, .., MIN(size, 8)), also of an empty struct *)
        (if (8 <? size_of t)%Z then [InReg (GReg g); InReg (GReg (g + 1))] else [InReg (GReg g)]) ::
        taken (if (8 <? size_of t)%Z then g + 2 else g + 1)%nat f ps
      else if is_float_arg t && Nat.ltb f max_regs then [InReg (FReg f)] :: taken g (f + 1) ps
      else match t with
           | TLDouble => if Nat.ltb (g + 1) max_regs then [InReg (GReg g); InReg (GReg (g + 1))] :: taken (g + 2) f ps else [] :: taken g f ps
           | _ => if Nat.ltb g max_regs then [InReg (GReg g)] :: taken (g + 1) f ps else [] :: taken g f ps
           end
  end.
(** codegen.c:2027-2053: the registers counted for the parameters of a variadic function *)
Fixpoint va_gp (f : nat) (ps : list ty) : nat :=
  match ps with
  | [] => O
  | t :: ps => if is_float_arg t then (if Nat.ltb f max_regs then va_gp (f + 1) ps else S (va_gp f ps)) else S (va_gp f ps)
  end.
Definition va_size (ps : list ty) : Z := 8 * Z.of_nat (max_regs - va_gp 0 ps).
(** g_arg after the loop of [taken] *)
Fixpoint taken_g (g f : nat) (ps : list (ty * Z)) : nat :=
  match ps with
  | [] => g
  | (t, off) :: ps =>
      if 0 <? off then taken_g (if Nat.ltb g max_regs then g + 1 else g)%nat f ps
      else if is_struct_union t then taken_g (if (8 <? size_of t)%Z then g + 2 else g + 1)%nat f ps
      else if is_float_arg t && Nat.ltb f max_regs then taken_g g (f + 1) ps
      else match t with
           | TLDouble => if Nat.ltb (g + 1) max_regs then taken_g (g + 2) f ps else taken_g g f ps
           | _ => if Nat.ltb g max_regs then taken_g (g + 1) f ps else taken_g g f ps
           end
  end.
(** codegen.c:2098-2114: the registers stored from va_area->offset on *)
Definition va_spill (g : nat) (off : Z) : list (nat * Z) :=
  map (fun k => ((g + k)%nat, off + 8 * Z.of_nat k)) (seq 0 (max_regs - g)).

(** ** The code of a function *)
(** codegen.c:1954-1989 store_args *)
Definition store_args (r : nat) (off sz : Z) : list instr :=
  let '(pre, base, off) := if beyond off then ([ILi T0 off; IOp ADD T0 Sp T0], T0, 0) else ([], Sp, off) in
  pre ++
  if (sz =? 1) || (sz =? 2) || (sz =? 4) || (sz =? 8) then [IStore sz (A r) off base]
  else flat_map (fun i => [IStore 1 (A r) (off + i) base; ISrli (A r) (A r) 8]) (zseq sz).
(** codegen.c:2063-2096 without floating point and structs *)
Fixpoint store_params (g : nat) (ps : list (ty * Z)) : list instr :=
  match ps with
  | [] => []
  | (t, off) :: ps =>
      if 0 <? off then store_params g ps
      else if Nat.ltb g max_regs then store_args g off (size_of t) ++ store_params (g + 1) ps
      else store_params g ps
  end.
(** codegen.c:2010-2193 emit_text, one function. [offs], [size]: what assign_lvar_offsets
    left. The moves between fs0-fs11 and ft0-ft11 and the directives are left out. None for a
    variadic function and for parameters that are not integers or pointers. *)
Definition emit_function (f : func) (offs : list Z) (size : Z) (body : snode) : G :=
  let goff k := nth k offs 0 in
  if f_variadic f || negb (forallb (fun v => int_arg (v_ty v)) (f_params f)) then fail
  else
    emit [Lab (LFun (f_name f))] ;;
    push Ra ;; push Fp ;; emit [Mv Fp Sp] ;;
    emit (store_params 0 (combine (map v_ty (f_params f)) (skipn (param_ix f) offs))) ;;
    emit (if beyond (- size) then [ILi T0 (- size); IOp ADD Sp Sp T0] else [IAddi Sp Sp (- size)]) ;;
    emit [ILi T0 (goff (bottom_ix f)); IOp ADD T0 T0 Fp; IStore 8 Sp 0 T0] ;;
    gen_stmt goff (f_name f) body ;;
    emit (if beq (f_name f) (bs "main") then [ILi A0 0] else []) ;;
    emit [Lab (LReturn (f_name f)); Mv Sp Fp] ;;
    pop Fp ;; pop Ra ;; emit [IRet].
(** From the parser to the code, for one function; [u]: counter of new_unique_name *)
Definition compile_function (uses : node -> nat) (f : func) (u : Z) (gs : gst) : option (list instr * Z * gst) :=
  let* (body, u') := parse_body (f_ret f) uses (f_body f) u in
  let* (offs, size) := frame f in
  let* (c, gs') := emit_function f offs size body gs in Some (c, u', gs').
(** All function definitions are parsed before code is generated; the two counters are
    independent, so this is the same as one after the other. *)
Fixpoint compile_program (uses : node -> nat) (fs : list func) (u : Z) (gs : gst) : option (list instr) :=
  match fs with
  | [] => Some []
  | f :: fs =>
      let* ((c, u'), gs') := compile_function uses f u gs in
      let* r := compile_program uses fs u' gs' in Some (c ++ r)
  end.
