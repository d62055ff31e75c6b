(** Model of the expressions part of /repo/codegen.c. The text printed is modelled as
    a list of instructions ([RvSpec.instr]); the .loc directives and comments are left
    out. Not modelled (the result is [None]): long double, floating point and struct arguments
    and results of calls, alloca (see FrameModel), ND_CAS, ND_EXCH, ND_STMT_EXPR,
    ND_LABEL_VAL, VLAs, thread-local variables. *)
From Verif Require Import Base TypeModel IntArith NodeModel ValSpec FpSpec RvSpec.

(** ** Labels *)
(** printf "%d" of a label number; the fuel suffices for every number *)
Fixpoint dec_loop (fuel : nat) (v : Z) (acc : bytes) : bytes :=
  match fuel with
  | O => acc
  | S f => if v <? 10 then (48 + v) :: acc else dec_loop f (v / 10) ((48 + v mod 10) :: acc)
  end.
Definition dec (v : Z) : bytes := dec_loop (S (Z.to_nat (Z.log2 v))) v [].

(** The labels codegen.c prints *)
Inductive lbl :=
  | LPcrel (c : Z)                                                      (* 193-232 *)
  | LElseE (c : Z) | LEndE (c : Z) | LFalse (c : Z) | LTrue (c : Z)     (* 1155-1205 *)
  | LElse (c : Z) | LEnd (c : Z) | LBegin (c : Z)                       (* 1651-1712 *)
  | LUniq (c : Z)                                                       (* new_unique_name, common.c:295-300 *)
  | LReturn (f : bytes) | LFun (f : bytes).                             (* 2034, 2161 *)
Definition name (l : lbl) : bytes :=
  match l with
  | LPcrel c => bs ".L.pcrel" ++ dec c
  | LElseE c => bs ".L.else." ++ dec c
  | LEndE c => bs ".L.end." ++ dec c
  | LFalse c => bs ".L.false." ++ dec c
  | LTrue c => bs ".L.true." ++ dec c
  | LElse c => bs "else." ++ dec c
  | LEnd c => bs "end." ++ dec c
  | LBegin c => bs "begin." ++ dec c
  | LUniq c => bs ".L.." ++ dec c
  | LReturn f => bs "return." ++ f
  | LFun f => f
  end.
Definition Lab (l : lbl) : instr := ILabel (name l).

(** ** State of the generator: `depth` and the counter of count() *)
Record gst := GS { g_depth : Z; g_cnt : Z }.
(** A function that prints code. None: a diagnostic, or code that is not modelled. *)
Definition G := gst -> option (list instr * gst).
Definition emit (c : list instr) : G := fun s => Some (c, s).
Definition fail : G := fun _ => None.
Definition seq_ (a b : G) : G := fun s =>
  match a s with
  | Some (ca, s1) => match b s1 with Some (cb, s2) => Some (ca ++ cb, s2) | None => None end
  | None => None
  end.
Notation "a ;; b" := (seq_ a b) (at level 61, right associativity).
Definition dep (k : Z) : G := fun s => Some ([], GS (g_depth s + k) (g_cnt s)).
(** count(), codegen.c:29-33 *)
Definition with_count (f : Z -> G) : G := fun s => f (g_cnt s) (GS (g_depth s) (g_cnt s + 1)).
Definition with_depth (f : Z -> G) : G := fun s => f (g_depth s) s.

(** codegen.c:73-99 __push, __pop *)
Definition push (r : reg) : G := emit [IAddi Sp Sp (-8); IStore 8 r 0 Sp] ;; dep 1.
Definition pop (r : reg) : G := emit [ILoad false 8 r 0 Sp; IAddi Sp Sp 8] ;; dep (-1).

(** the same for fa registers: fsd, fld *)
Definition fpush (r : reg) : G := emit [IAddi Sp Sp (-8); IFStore B64 r 0 Sp] ;; dep 1.
Definition fpop (r : reg) : G := emit [IFLoad B64 r 0 Sp; IAddi Sp Sp 8] ;; dep (-1).

(** codegen.c:176-180 *)
Definition beyond (off : Z) : bool := (2047 <? off) || (off <? -2048).
Definition A0 := A 0. Definition A1 := A 1. Definition T0 := T 0. Definition T1 := T 1. Definition T2 := T 2.
Definition FA0 := FA 0. Definition FA1 := FA 1.

(** codegen.c:373-420 load; long double is not modelled *)
Definition access_size (t : ty) : Z :=
  if size_of t =? 1 then 1 else if size_of t =? 2 then 2 else if size_of t =? 4 then 4 else 8.
Definition load (t : ty) : G :=
  match t with
  | TArr _ _ | TStruct _ _ _ | TUnion _ _ _ | TFunc _ | TVla _ => emit []
  | TFloat => emit [IFLoad B32 FA0 0 A0]
  | TDouble => emit [IFLoad B64 FA0 0 A0]
  | TLDouble => fail
  | _ => emit [if access_size t =? 8 then ILoad false 8 A0 0 A0 else ILoad (is_unsigned t) (access_size t) A0 0 A0]
  end.
(** codegen.c:423-471 store *)
Definition copy_byte (i : Z) : list instr :=
  if beyond i
  then [ILi T0 i; IOp ADD T0 A0 T0; ILoad false 1 T1 0 T0; ILi T0 i; IOp ADD T0 A1 T0; IStore 1 T1 0 T0]
  else [ILoad false 1 T0 i A0; IStore 1 T0 i A1].
Definition zseq (n : Z) : list Z := map Z.of_nat (seq 0 (Z.to_nat n)).
Definition store (t : ty) : G :=
  pop A1 ;;
  match t with
  | TStruct _ _ _ | TUnion _ _ _ => emit (flat_map copy_byte (zseq (size_of t)))
  | TFloat => emit [IFStore B32 FA0 0 A1]
  | TDouble => emit [IFStore B64 FA0 0 A1]
  | TLDouble => fail
  | _ => emit [IStore (access_size t) A0 0 A1]
  end.

(** codegen.c:480-500 getTypeId *)
Inductive tid := I8 | I16 | I32 | I64 | U8 | U16 | U32 | U64 | F32 | F64 | F128.
Definition type_id (t : ty) : tid :=
  match t with
  | TChar u => if u then U8 else I8
  | TShort u => if u then U16 else I16
  | TInt u => if u then U32 else I32
  | TLong u => if u then U64 else I64
  | TFloat => F32 | TDouble => F64 | TLDouble => F128
  | _ => U64
  end.
(** codegen.c:504-511 TOI8 .. TOU32 *)
Definition to_s (n : Z) : option (list instr) := Some [ISlli A0 A0 (64 - n); ISrai A0 A0 (64 - n)].
Definition to_u (n : Z) : option (list instr) := Some [ISlli A0 A0 (64 - n); ISrli A0 A0 (64 - n)].
(** codegen.c:513-556 I32F32 .. F64F32: between integers and float and double *)
Definition from_int (f : fmt) (sg : bool) (n : Z) : option (list instr) := Some [IFFromInt f sg n FA0 A0].
Definition to_int (sg : bool) (n : Z) (f : fmt) (c : option (list instr)) : option (list instr) :=
  Some (IFToInt sg n f A0 FA0 :: match c with Some c => c | None => [] end).
(** codegen.c:567-584 cast_matrix without the row and the column of long double *)
Definition cast_matrix (from to : tid) : option (list instr) :=
  match from, to with
  | I8, (U8) => to_u 8 | I8, U16 => to_u 16 | I8, U32 => to_u 32
  | I16, I8 => to_s 8 | I16, U8 => to_u 8 | I16, U16 => to_u 16 | I16, U32 => to_u 32
  | I32, I8 => to_s 8 | I32, I16 => to_s 16 | I32, U8 => to_u 8 | I32, U16 => to_u 16 | I32, U32 => to_u 32
  | I64, I8 => to_s 8 | I64, I16 => to_s 16 | I64, I32 => to_s 32 | I64, U8 => to_u 8 | I64, U16 => to_u 16 | I64, U32 => to_u 32
  | U16, I8 => to_s 8 | U16, U8 => to_u 8
  | U32, I8 => to_s 8 | U32, I16 => to_s 16 | U32, U8 => to_u 8 | U32, U16 => to_u 16
  | U64, I8 => to_s 8 | U64, I16 => to_s 16 | U64, I32 => to_s 32 | U64, U8 => to_u 8 | U64, U16 => to_u 16 | U64, U32 => to_u 32
  | (I8 | I16 | I32), F32 => from_int B32 true 32 | (I8 | I16 | I32), F64 => from_int B64 true 32
  | I64, F32 => from_int B32 true 64 | I64, F64 => from_int B64 true 64
  | (U8 | U16 | U32), F32 => from_int B32 false 32 | (U8 | U16 | U32), F64 => from_int B64 false 32
  | U64, F32 => from_int B32 false 64 | U64, F64 => from_int B64 false 64
  | F32, I8 => to_int true 32 B32 (to_s 8) | F32, I16 => to_int true 32 B32 (to_s 16)
  | F32, I32 => to_int true 32 B32 None | F32, I64 => to_int true 64 B32 None
  | F32, U8 => to_int false 32 B32 (to_u 8) | F32, U16 => to_int false 32 B32 (to_u 16)
  | F32, U32 => to_int false 32 B32 None | F32, U64 => to_int false 64 B32 None
  | F64, I8 => to_int true 32 B64 (to_s 8) | F64, I16 => to_int true 32 B64 (to_s 16)
  | F64, I32 => to_int true 32 B64 None | F64, I64 => to_int true 64 B64 None
  | F64, U8 => to_int false 32 B64 (to_u 8) | F64, U16 => to_int false 32 B64 (to_u 16)
  | F64, U32 => to_int false 32 B64 None | F64, U64 => to_int false 64 B64 None
  | F32, F64 => Some [IFConv B64 B32 FA0 FA0] | F64, F32 => Some [IFConv B32 B64 FA0 FA0]
  | _, _ => None
  end.
(** codegen.c:586-612 cast *)
Definition cast (from to : ty) : G :=
  match to with
  | TVoid => emit []
  | TBool => emit [Snez A0 A0]
  | _ =>
      match type_id from, type_id to with
      | F128, _ | _, F128 => fail
      | f, t => match cast_matrix f t with Some c => emit c | None => emit [] end
      end
  end.
(** codegen.c:614-640 cmp_zero *)
Definition cmp_zero (t : ty) : G :=
  match t with
  | TFloat => emit [IFMv B32 FA1 Zero; IFCmp FEq B32 A0 FA0 FA1]
  | TDouble => emit [IFMv B64 FA1 Zero; IFCmp FEq B64 A0 FA0 FA1]
  | TLDouble => fail
  | _ => emit [Seqz A0 A0]
  end.
(** float and double *)
Definition flo (t : ty) : option fmt := match t with TFloat => Some B32 | TDouble => Some B64 | _ => None end.
(** codegen.c:1416-1455, the instructions for a binary operator on float or double; the
    other operators get the diagnostic "invalid expression" *)
Definition fbin_code (o : bop) (f : fmt) : G :=
  match o with
  | Add => emit [IFOp FAdd f FA0 FA0 FA1]
  | Sub => emit [IFOp FSub f FA0 FA0 FA1]
  | Mul => emit [IFOp FMul f FA0 FA0 FA1]
  | Div => emit [IFOp FDiv f FA0 FA0 FA1]
  | Eq => emit [IFCmp FEq f A0 FA0 FA1]
  | Ne => emit [IFCmp FEq f A0 FA0 FA1; Seqz A0 A0]
  | Lt => emit [IFCmp FLt f A0 FA0 FA1]
  | Le => emit [IFCmp FLe f A0 FA0 FA1]
  | _ => fail
  end.

(** codegen.c:1420-1583, the instructions for a binary operator on integers; [t] is
    node->ty and [tl] node->lhs->ty *)
Definition bin_code (o : bop) (t tl : ty) : list instr :=
  let wide := match tl with TLong _ => true | _ => has_base tl end in
  let op a aw := IOp (if wide then a else aw) A0 A0 A1 in
  match o with
  | Add => [op ADD ADDW]
  | Sub => [op SUB SUBW]
  | Mul => [op MUL MULW]
  | Div => [if is_unsigned t then op DIVU DIVUW else op DIV DIVW]
  | Mod => [if is_unsigned t then op REMU REMUW else op REM REMW]
  | And => [IOp AND A0 A0 A1]
  | Or => [IOp OR A0 A0 A1]
  | Xor => [IOp XOR A0 A0 A1]
  | Eq => [IOp XOR A0 A0 A1; Seqz A0 A0]
  | Ne => [IOp XOR A0 A0 A1; Snez A0 A0]
  | Lt => [IOp (if is_unsigned tl then SLTU else SLT) A0 A0 A1]
  | Le => [IOp (if is_unsigned t then SLTU else SLT) A0 A1 A0; Seqz A0 A0]
  | Shl => [op SLL SLLW]
  | Shr => [if is_unsigned t then op SRL SRLW else op SRA SRAW]
  end.

(** codegen.c:1097-1125: the bit-field merge before store(); `(1L << 64) - 1` is
    undefined in C, so a width of 64 is not modelled *)
Definition bf_merge (t : ty) (o w : Z) : G :=
  if w =? 64 then fail else
  emit [Mv T2 A0; Mv T0 A0; ILi T1 (2 ^ w - 1); IOp AND T0 T0 T1; ISlli T0 T0 o; ILoad false 8 A0 0 Sp] ;;
  load t ;;
  emit [ILi T1 (Z.lnot ((2 ^ w - 1) * 2 ^ o)); IOp AND A0 A0 T1; IOp OR A0 A0 T0].

(** codegen.c:1301-1323, after a call *)
Definition narrow (t : ty) : list instr :=
  match t with
  | TBool | TChar _ => [ISlli A0 A0 56; if is_unsigned t then ISrli A0 A0 56 else ISrai A0 A0 56]
  | TShort _ => [ISlli A0 A0 48; if is_unsigned t then ISrli A0 A0 48 else ISrai A0 A0 48]
  | _ => []
  end.
Definition is_alloca (f : node) : bool := match f with NVar (VGlobal s) _ => beq s (bs "alloca") | _ => false end.
(** An argument whose class is integer *)
Definition int_arg (t : ty) : bool :=
  match t with TFloat | TDouble | TLDouble | TStruct _ _ _ | TUnion _ _ _ => false | _ => true end.
Fixpoint pops (n i : nat) : G := match n with O => emit [] | S k => pop (A i) ;; pops k (S i) end.

(** gen_addr ([lv] = true, codegen.c:235-368) and gen_expr ([lv] = false, codegen.c:963-1583).
    [goff k]: var->offset of the local variable [k]. *)
Section Gen.
Variable goff : nat -> Z.

Definition local_addr (off : Z) : list instr :=
  if beyond off then [ILi T0 off; IOp ADD A0 Fp T0] else [IAddi A0 Fp off].
Definition zero_byte (off : Z) : list instr :=
  if beyond off then [ILi T0 off; IOp ADD T0 Fp T0; IStore 1 Zero 0 T0] else [IStore 1 Zero off Fp].

Fixpoint gen (lv : bool) (n : node) {struct n} : G :=
  match n with
  | NNull => if lv then fail else emit []
  | NNum t v =>
      if lv then fail
      else match flo t with
           | Some f => emit [ILi A0 v; IFMv f FA0 A0]    (* v: the bits of the constant in its type *)
           | None => if is_float t then fail else emit [ILi A0 (sx 64 v)]
           end
  | NVar x t =>
      match t with
      | TVla _ => fail
      | _ =>
          match x with
          | VLocal k => emit (local_addr (goff k))
          | VGlobal s => with_count (fun c => emit [Lab (LPcrel c); ILa A0 s])
          end ;; if lv then emit [] else load t
      end
  | NMember l i =>
      gen true l ;;
      emit (if beyond (m_off i) then [ILi T0 (m_off i); IOp ADD A0 A0 T0] else [IAddi A0 A0 (m_off i)]) ;;
      if lv then emit []
      else load (m_ty i) ;;
           match m_bf i with
           | None => emit []
           | Some (o, w) => emit [ISlli A0 A0 (64 - w - o); if is_unsigned (m_ty i) then ISrli A0 A0 (64 - w) else ISrai A0 A0 (64 - w)]
           end
  | NDeref l => gen false l ;; if lv then emit [] else load (ntype n)
  | NAddr l => if lv then fail else gen true l
  | NAssign l r =>
      if lv && negb (is_struct_union (ntype l)) then emit []
      else
        gen true l ;; push A0 ;; gen false r ;;
        match l with
        | NMember _ (MInfo t _ (Some (o, w))) => bf_merge t o w ;; store t ;; emit [Mv A0 T2]
        | _ => store (ntype l)
        end
  | NComma l r => gen false l ;; gen lv r
  | NCast t l => if lv then fail else gen false l ;; cast (ntype l) t
  | NCond c a b =>
      if lv && negb (is_struct_union (ntype n)) then emit []
      else with_count (fun k =>
        gen false c ;; cmp_zero (ntype c) ;; emit [Bnez A0 (name (LElseE k))] ;;
        gen false a ;; emit [IJ (name (LEndE k)); Lab (LElseE k)] ;;
        gen false b ;; emit [Lab (LEndE k)])
  | NNeg t l =>
      if lv then fail
      else match flo t with
           | Some f => gen false l ;; emit [IFNeg f FA0 FA0]
           | None => if is_float t then fail else gen false l ;; emit [if size_of t =? 8 then Neg A0 A0 else Negw A0 A0]
           end
  | NNot l => if lv then fail else gen false l ;; cmp_zero (ntype l)
  | NBitNot l => if lv then fail else gen false l ;; emit [Not A0 A0]
  | NLogAnd l r =>
      if lv then fail else with_count (fun k =>
        gen false l ;; cmp_zero (ntype l) ;; emit [Bnez A0 (name (LFalse k))] ;;
        gen false r ;; cmp_zero (ntype l) ;;
        emit [Bnez A0 (name (LFalse k)); ILi A0 1; IJ (name (LEndE k)); Lab (LFalse k); ILi A0 0; Lab (LEndE k)])
  | NLogOr l r =>
      if lv then fail else with_count (fun k =>
        gen false l ;; cmp_zero (ntype l) ;; emit [Beqz A0 (name (LTrue k))] ;;
        gen false r ;; cmp_zero (ntype r) ;;
        emit [Beqz A0 (name (LTrue k)); ILi A0 0; IJ (name (LEndE k)); Lab (LTrue k); ILi A0 1; Lab (LEndE k)])
  | NBin o t l r =>
      if lv then fail
      else match flo (ntype l) with
           | Some f => gen false r ;; fpush FA0 ;; gen false l ;; fpop FA1 ;; fbin_code o f
           | None =>
               if is_float (ntype l) then fail
               else gen false r ;; push A0 ;; gen false l ;; pop A1 ;; emit (bin_code o t (ntype l))
           end
  | NMemzero x t =>
      if lv then fail
      else match x with
           | VLocal k => emit (flat_map (fun i => zero_byte (goff k + i)) (zseq (size_of t)))
           | VGlobal _ => fail
           end
  | NCall f args t =>
      if lv then emit []
      else if is_alloca f || negb (forallb (fun a => int_arg (ntype a)) args) || negb (int_arg t) then fail
      else
        (* push_args2, codegen.c:676-710: the arguments from the last to the first *)
        let push_args2 first :=
          fix go (i : nat) (l : list node) : G :=
            match l with
            | [] => emit []
            | a :: r => go (S i) r ;; if Bool.eqb (Nat.leb 8 i) first then gen false a ;; push A0 else emit []
            end in
        (* push_args, codegen.c:776-892: the first 8 in registers *)
        let nst := Z.of_nat (List.length args - 8) in
        with_depth (fun d =>
          let pad := (d + nst) mod 2 =? 1 in
          let stack := if pad then nst + 1 else nst in
          (if pad then emit [IAddi Sp Sp (-8)] ;; dep 1 else emit []) ;;
          emit [Mv T1 Sp; IAddi Sp Sp 0] ;;
          push_args2 true 0%nat args ;; push_args2 false 0%nat args ;;
          gen false f ;; emit [Mv T0 A0] ;;
          pops (Nat.min 8 (List.length args)) 0 ;;
          emit [ICall T0] ;;
          (if stack =? 0 then emit [] else emit [IAddi Sp Sp (8 * stack)] ;; dep (- stack)) ;;
          emit (narrow t))
  end.
End Gen.
