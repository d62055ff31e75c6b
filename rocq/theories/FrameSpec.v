(** What a stack frame and the passing of arguments must satisfy. *)
From Verif Require Import Base TypeModel FrameModel.

(** ** Frames *)
Definition lvar_ok (v : lvar) : Prop := 0 <= size_of (v_ty v) /\ 0 < v_align v.
(** Two objects do not overlap. *)
Definition apart (o1 s1 o2 s2 : Z) : Prop := o1 + s1 <= o2 \/ o2 + s2 <= o1.

(** ** Arguments *)
(** The caller has put word [j] of argument [i] where the callee looks for it. *)
Definition agrees (call : list (areg * aword) * list aword) (takes : list (list aloc)) : Prop :=
  forall i locs j l, nth_error takes i = Some locs -> nth_error locs j = Some l ->
  match l with
  | InReg r => In (r, AW i j) (fst call)
  | OnStack o => exists p, o = 8 * Z.of_nat p /\ nth_error (snd call) p = Some (AW i j)
  end.
Definition word_count (k : akind) : nat := match k with KAgg n => n | KLd => 2 | _ => 1 end.
(** A parameter that can be declared: void, functions and arrays cannot. *)
Definition param_ok (t : ty) : Prop := match akind_of t with KAgg _ => 0 <= size_of t | KLd => True | _ => 1 <= size_of t <= 8 end.

(** The signatures for which it is claimed: small structs and long doubles fit into the
    registers that are left, no struct is empty; a big struct's pointer is in a register,
    and then no other argument is on the stack. [g], [f]: registers used before. *)
Fixpoint small_fit (g f : nat) (ks : list akind) : bool :=
  match ks with
  | [] => true
  | k :: ks =>
      match k with
      | KAgg n => if Nat.leb n 2 then Nat.leb 1 n && Nat.leb (g + n) 8 && small_fit (g + n) f ks else Nat.ltb g 8 && small_fit (g + 1) f ks
      | KLd => Nat.leb (g + 2) 8 && small_fit (g + 2) f ks
      | KFlt => if Nat.ltb f 8 then small_fit g (f + 1) ks else small_fit (g + 1) f ks
      | KInt => small_fit (g + 1) f ks
      end
  end.
Definition is_big (k : akind) : bool := match k with KAgg n => negb (Nat.leb n 2) | _ => false end.
(** integer registers used by the integer and floating point arguments after [f] floating
    point registers are in use *)
Fixpoint regs_used (f : nat) (ks : list akind) : nat :=
  match ks with
  | [] => 0
  | k :: ks =>
      match k with
      | KAgg n => if Nat.leb n 2 then n + regs_used f ks else 1 + regs_used f ks
      | KLd => 2 + regs_used f ks
      | KFlt => if Nat.ltb f 8 then regs_used (f + 1) ks else 1 + regs_used f ks
      | KInt => 1 + regs_used f ks
      end
  end%nat.
Definition covered (ks : list akind) : bool :=
  small_fit 0 0 ks && (negb (existsb is_big ks) || Nat.leb (regs_used 0 ks) 8).
(** The callee looks for every word of every parameter. *)
Definition takes_all (takes : list (list aloc)) (ps : list ty) : Prop := Forall2 (fun locs t => List.length locs = word_count (akind_of t)) takes ps.
Definition scalar_kind (k : akind) : Prop := k = KInt \/ k = KFlt.
