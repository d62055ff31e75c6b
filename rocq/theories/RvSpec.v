(** The RISC-V machine (RV64IMFD), after The RISC-V Instruction Set Manual, volume I:
    the instructions the code generator prints, executed on a list of instructions and
    labels. Part of the trusted base: nothing here comes from /repo. Registers hold
    numbers in [0, 2^64). Of the floating point registers there are those named fa; the
    rounding mode is the initial one (to nearest, ties to even), the flags are left out. *)
From Verif Require Import Base IntArith ValSpec FpSpec.

Inductive reg := Zero | Ra | Sp | Fp | A (n : nat) | T (n : nat) | FA (n : nat).
Definition reg_eqb (a b : reg) : bool :=
  match a, b with
  | Zero, Zero | Ra, Ra | Sp, Sp | Fp, Fp => true
  | A n, A m | T n, T m | FA n, FA m => Nat.eqb n m
  | _, _ => false
  end.

Inductive rop :=
  | ADD | SUB | MUL | DIV | DIVU | REM | REMU | AND | OR | XOR | SLL | SRL | SRA | SLT | SLTU
  | ADDW | SUBW | MULW | DIVW | DIVUW | REMW | REMUW | SLLW | SRLW | SRAW.

Definition wrap (z : Z) : Z := z mod 2 ^ 64.
(** the 64 bits of [r] as a signed number, its low 32 bits as a signed and as an
    unsigned number *)
Definition sgn (r : Z) : Z := sx 64 r.
Definition sgn32 (r : Z) : Z := sx 32 r.
Definition uns32 (r : Z) : Z := r mod 2 ^ 32.
(** chapter 7 (M extension): division by zero gives all ones, the remainder is then
    the dividend; -2^63 / -1 is -2^63, remainder 0. *)
Definition rdiv (x y : Z) : Z := if y =? 0 then -1 else Z.quot x y.
Definition rrem (x y : Z) : Z := if y =? 0 then x else Z.rem x y.

Definition exec_op (o : rop) (x y : Z) : Z :=
  match o with
  | ADD => wrap (x + y) | SUB => wrap (x - y) | MUL => wrap (x * y)
  | DIV => wrap (rdiv (sgn x) (sgn y)) | DIVU => wrap (rdiv x y)
  | REM => wrap (rrem (sgn x) (sgn y)) | REMU => wrap (rrem x y)
  | AND => Z.land x y | OR => Z.lor x y | XOR => Z.lxor x y
  | SLL => wrap (x * 2 ^ (y mod 64)) | SRL => x / 2 ^ (y mod 64) | SRA => wrap (sgn x / 2 ^ (y mod 64))
  | SLT => b2z (sgn x <? sgn y) | SLTU => b2z (x <? y)
  | ADDW => wrap (sgn32 (x + y)) | SUBW => wrap (sgn32 (x - y)) | MULW => wrap (sgn32 (x * y))
  | DIVW => wrap (sgn32 (rdiv (sgn32 x) (sgn32 y))) | DIVUW => wrap (sgn32 (rdiv (uns32 x) (uns32 y)))
  | REMW => wrap (sgn32 (rrem (sgn32 x) (sgn32 y))) | REMUW => wrap (sgn32 (rrem (uns32 x) (uns32 y)))
  | SLLW => wrap (sgn32 (x * 2 ^ (y mod 32))) | SRLW => wrap (sgn32 (uns32 x / 2 ^ (y mod 32)))
  | SRAW => wrap (sgn32 x / 2 ^ (y mod 32))
  end.

(** Chapters 11 and 12 (F and D extensions): a single in a register has all ones above it;
    a register that has not counts as the canonical NaN. *)
Definition box (f : fmt) (z : Z) : Z := match f with B32 => z mod 2 ^ 32 + (2 ^ 32 - 1) * 2 ^ 32 | B64 => z mod 2 ^ 64 end.
Definition unbox (f : fmt) (r : Z) : Z :=
  match f with B32 => if r / 2 ^ 32 =? 2 ^ 32 - 1 then r mod 2 ^ 32 else nan_bits B32 | B64 => r end.
(** fcvt to an integer of [n] bits, towards zero: out of range gives the nearest bound, NaN
    the upper one. The 32 bit result, also an unsigned one, is sign-extended. *)
Definition fcvt_int (sg : bool) (n : Z) (f : fmt) (x : Z) : Z :=
  let lo := if sg then - 2 ^ (n - 1) else 0 in
  let hi := if sg then 2 ^ (n - 1) - 1 else 2 ^ n - 1 in
  let v := match ftrunc f x with Some v => Z.max lo (Z.min hi v) | None => if fminus f x then lo else hi end in
  wrap (sx n v).
(** The integer fcvt converts from *)
Definition int_operand (sg : bool) (n : Z) (r : Z) : Z := if sg then sx n r else r mod 2 ^ n.

(** Branch conditions: beq, bleu (an alias of bgeu with swapped operands) *)
Inductive bcond := BEQ | BNE | BLEU.
Definition exec_cond (c : bcond) (x y : Z) : bool :=
  match c with BEQ => x =? y | BNE => negb (x =? y) | BLEU => x <=? y end.

(** Labels are strings. *)
Definition label := bytes.

Inductive instr :=
  | ILabel (l : label)                          (* l: *)
  | ILi (rd : reg) (v : Z)                      (* li rd, v *)
  | ILa (rd : reg) (s : bytes)                  (* the address of a symbol *)
  | ILaLabel (rd : reg) (l : label)             (* la rd, l *)
  | IAddi (rd rs : reg) (v : Z)
  | IXori (rd rs : reg) (v : Z)
  | IAndi (rd rs : reg) (v : Z)
  | ISltiu (rd rs : reg) (v : Z)
  | ISlli (rd rs : reg) (n : Z) | ISrli (rd rs : reg) (n : Z) | ISrai (rd rs : reg) (n : Z)
  | IOp (o : rop) (rd r1 r2 : reg)
  | ILoad (u : bool) (n : Z) (rd : reg) (off : Z) (rs : reg)   (* lb lh lw ld lbu lhu lwu: n bytes *)
  | IStore (n : Z) (r2 : reg) (off : Z) (r1 : reg)
  | IFLoad (f : fmt) (rd : reg) (off : Z) (rs : reg)           (* flw fld *)
  | IFStore (f : fmt) (r2 : reg) (off : Z) (r1 : reg)          (* fsw fsd *)
  | IFOp (o : fbin) (f : fmt) (rd r1 r2 : reg)                 (* fadd fsub fmul fdiv *)
  | IFNeg (f : fmt) (rd rs : reg)
  | IFCmp (o : fcomp) (f : fmt) (rd r1 r2 : reg)               (* feq flt fle *)
  | IFFromInt (f : fmt) (sg : bool) (n : Z) (rd rs : reg)      (* fcvt.s.w .. fcvt.d.lu *)
  | IFToInt (sg : bool) (n : Z) (f : fmt) (rd rs : reg)        (* fcvt.w.s .. fcvt.lu.d, rtz *)
  | IFConv (g f : fmt) (rd rs : reg)                           (* fcvt.g.f *)
  | IFMv (f : fmt) (rd rs : reg)                               (* fmv.s.x fmv.d.x *)
  | IBr (c : bcond) (r1 r2 : reg) (l : label)
  | IJ (l : label)
  | IJr (r : reg)                               (* jr r: jump to a code address *)
  | ICall (r : reg)                             (* jalr ra, r *)
  | IRet.

(** Standard pseudo-instructions *)
Definition Mv rd rs := IAddi rd rs 0.
Definition Neg rd rs := IOp SUB rd Zero rs.
Definition Negw rd rs := IOp SUBW rd Zero rs.
Definition Not rd rs := IXori rd rs (-1).
Definition Seqz rd rs := ISltiu rd rs 1.
Definition Snez rd rs := IOp SLTU rd Zero rs.
Definition Bnez r l := IBr BNE r Zero l.
Definition Beqz r l := IBr BEQ r Zero l.

Definition prog := list instr.
Definition regs := reg -> Z.
Definition upd (rs : regs) (r : reg) (v : Z) : regs := fun x => if reg_eqb x r then v else rs x.
Definition setr (rs : regs) (r : reg) (v : Z) : regs := match r with Zero => rs | _ => upd rs r v end.

(** Program counter (an index of the list), registers, memory *)
Record state := St { pc : nat; rg : regs; mm : mem }.

(** A load or store of [n] bytes must not run past the end of the address space. *)
Definition ea (rs : regs) (r : reg) (off n : Z) : option Z :=
  let a := wrap (rs r + off) in if a + n <=? 2 ^ 64 then Some a else None.

(** One instruction that is not a branch or call. [sym]: addresses of the symbols. *)
Definition exec_straight (sym : bytes -> Z) (i : instr) (rs : regs) (m : mem) : option (regs * mem) :=
  match i with
  | ILabel _ => Some (rs, m)
  | ILi rd v => Some (setr rs rd (wrap v), m)
  | ILa rd s => Some (setr rs rd (sym s), m)
  | IAddi rd r v => Some (setr rs rd (wrap (rs r + v)), m)
  | IXori rd r v => Some (setr rs rd (Z.lxor (rs r) (wrap v)), m)
  | IAndi rd r v => Some (setr rs rd (Z.land (rs r) (wrap v)), m)
  | ISltiu rd r v => Some (setr rs rd (b2z (rs r <? wrap v)), m)
  | ISlli rd r n => Some (setr rs rd (wrap (rs r * 2 ^ n)), m)
  | ISrli rd r n => Some (setr rs rd (rs r / 2 ^ n), m)
  | ISrai rd r n => Some (setr rs rd (wrap (sgn (rs r) / 2 ^ n)), m)
  | IOp o rd r1 r2 => Some (setr rs rd (exec_op o (rs r1) (rs r2)), m)
  | ILoad u n rd off r =>
      match ea rs r off n with
      | Some a => let z := le_load m a (Z.to_nat n) in Some (setr rs rd (if u then z else wrap (sx (8 * n) z)), m)
      | None => None
      end
  | IStore n r2 off r1 =>
      match ea rs r1 off n with
      | Some a => Some (rs, le_store m a n (rs r2))
      | None => None
      end
  | IFLoad f rd off r =>
      match ea rs r off (width f / 8) with
      | Some a => Some (setr rs rd (box f (le_load m a (Z.to_nat (width f / 8)))), m)
      | None => None
      end
  | IFStore f r2 off r1 =>
      match ea rs r1 off (width f / 8) with
      | Some a => Some (rs, le_store m a (width f / 8) (rs r2))
      | None => None
      end
  | IFOp o f rd r1 r2 => Some (setr rs rd (box f (fop o f (unbox f (rs r1)) (unbox f (rs r2)))), m)
  | IFNeg f rd r => Some (setr rs rd (box f (fneg f (unbox f (rs r)))), m)
  | IFCmp o f rd r1 r2 => Some (setr rs rd (b2z (fcmp o f (unbox f (rs r1)) (unbox f (rs r2)))), m)
  | IFFromInt f sg n rd r => Some (setr rs rd (box f (fof f (int_operand sg n (rs r)))), m)
  | IFToInt sg n f rd r => Some (setr rs rd (fcvt_int sg n f (unbox f (rs r))), m)
  | IFConv g f rd r => Some (setr rs rd (box g (fconv f g (unbox f (rs r)))), m)
  | IFMv f rd r => Some (setr rs rd (box f (rs r)), m)
  | _ => None
  end.

(** Straight-line code *)
Fixpoint exec_list (sym : bytes -> Z) (c : list instr) (rs : regs) (m : mem) : option (regs * mem) :=
  match c with
  | [] => Some (rs, m)
  | i :: r => match exec_straight sym i rs m with Some (rs, m) => exec_list sym r rs m | None => None end
  end.

Definition label_eqb : label -> label -> bool := beq.
Fixpoint find_label (p : prog) (l : label) : option nat :=
  match p with
  | [] => None
  | ILabel l' :: r => if label_eqb l l' then Some 0%nat else option_map S (find_label r l)
  | _ :: r => option_map S (find_label r l)
  end.

(** What is outside the program: the addresses of symbols and labels, where the
    instructions are in memory, and the effect of calling a function that is not part of
    the program (from the registers and memory at the call to those at its return;
    None: it does not return). *)
Record world := World {
  w_sym : bytes -> Z;
  w_lab : label -> Z;
  w_at : nat -> Z;                (* the address of an instruction *)
  w_code : Z -> option nat;       (* the instruction at an address *)
  w_ext : Z -> regs -> mem -> option (regs * mem);
}.

Definition step (w : world) (p : prog) (s : state) : option state :=
  match nth_error p (pc s) with
  | None => None
  | Some i =>
      match i with
      | IBr c r1 r2 l =>
          if exec_cond c (rg s r1) (rg s r2)
          then match find_label p l with Some k => Some (St k (rg s) (mm s)) | None => None end
          else Some (St (S (pc s)) (rg s) (mm s))
      | IJ l => match find_label p l with Some k => Some (St k (rg s) (mm s)) | None => None end
      | IJr r => match w_code w (rg s r) with Some k => Some (St k (rg s) (mm s)) | None => None end
      | ILaLabel rd l => Some (St (S (pc s)) (setr (rg s) rd (w_lab w l)) (mm s))
      | ICall r =>
          match w_code w (rg s r) with
          | Some k => Some (St k (setr (rg s) Ra (w_at w (S (pc s)))) (mm s))
          | None =>
              match w_ext w (rg s r) (rg s) (mm s) with
              | Some (rs, m) => Some (St (S (pc s)) rs m)
              | None => None
              end
          end
      | IRet => match w_code w (rg s Ra) with Some k => Some (St k (rg s) (mm s)) | None => None end
      | _ => match exec_straight (w_sym w) i (rg s) (mm s) with
             | Some (rs, m) => Some (St (S (pc s)) rs m)
             | None => None
             end
      end
  end.

Inductive star (w : world) (p : prog) : state -> state -> Prop :=
  | star_refl s : star w p s s
  | star_step s s1 s2 : step w p s = Some s1 -> star w p s1 s2 -> star w p s s2.

Definition labels (p : prog) : list label := flat_map (fun i => match i with ILabel l => [l] | _ => [] end) p.
(** The fragment [c] is at position [k] of [p]. *)
Definition code_at (p : prog) (k : nat) (c : list instr) : Prop := exists p1 p2, p = p1 ++ c ++ p2 /\ List.length p1 = k.
