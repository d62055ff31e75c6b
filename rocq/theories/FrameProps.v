(** Properties C43 and C44. *)
From Verif Require Import Base TypeModel LayoutModel NodeModel ValSpec StmtSpec FrameModel FrameSpec FrameArgs FrameProofs.
Local Notation length := List.length.
Local Arguments Z.mul : simpl never.
Local Arguments Z.add : simpl never.
Local Arguments Z.sub : simpl never.

(** ** C43 *)
(** Every variable has a slot in the frame, at a multiple of its alignment (relative to the
    frame pointer), or is a parameter (or the variadic area) above the two saved registers;
    no two overlap. *)
Theorem C43_frame_partial f offs size : frame f = Some (offs, size) -> Forall lvar_ok (f_locals f) ->
  length offs = length (f_locals f) /\ 0 <= size /\ (8 | size) /\
  (forall i v o, nth_error (f_locals f) i = Some v -> nth_error offs i = Some o ->
     (- size <= o /\ o + size_of (v_ty v) <= 0 /\ (v_align v | o)) \/ ((S (bottom_ix f) <= i)%nat /\ 16 <= o /\ (8 | o))) /\
  (forall i j v w o o', i <> j -> nth_error (f_locals f) i = Some v -> nth_error (f_locals f) j = Some w ->
     nth_error offs i = Some o -> nth_error offs j = Some o' -> apart o (size_of (v_ty v)) o' (size_of (v_ty w))).
Proof. intros H OK. destruct (frame_ok f offs size H OK) as [F1 [F2 F3] F4 F5 _]. auto 10. Qed.
Print Assumptions C43_frame_partial.
Definition arr (n : Z) := plain (TArr (TChar false) n).
(** nine parameters and three variables, one with _Alignas(32) *)
Definition ex_fun : func := Func (bs "f") (TInt false) (repeat (plain (TLong false)) 9 ++ [plain (TInt false)]) false [arr 3; LV (TChar false) 32; plain (TLong false)] SSkip.
Example C43_nonvacuous : frame ex_fun = Some ([-3; -32; -40; -48; -56; -64; -72; -80; -88; -96; -104; -112; 16; 24], 112) /\ Forall lvar_ok (f_locals ex_fun).
Proof. split; [vm_compute; reflexivity|]. repeat constructor; vm_compute; congruence. Qed.
(** The full claim, alignment of the variables themselves, is false for alignments above 8:
    the frame pointer of a function is 16 below the stack pointer of the caller, and the size
    of a frame is only rounded up to a multiple of 8. A function without variables that has a
    16-byte aligned frame pointer and calls another one: *)
Definition ex_caller : func := Func (bs "g") TVoid [] false [] SSkip.
Definition ex_callee : func := Func (bs "h") TVoid [] false [plain TLDouble] SSkip.
Theorem C43_alignment_refuted : exists caller callee offs size offs' size' i v o,
  frame caller = Some (offs, size) /\ frame callee = Some (offs', size') /\
  nth_error (f_locals callee) i = Some v /\ nth_error offs' i = Some o /\
  forall fp, (16 | fp) -> let fp' := fp - size - 16 in ~ (v_align v | fp' + o).
Proof.
  exists ex_caller, ex_callee. eexists _, _, _, _, 0%nat, _, _. split; [vm_compute; reflexivity|]. split; [vm_compute; reflexivity|].
  split; [reflexivity|]. split; [reflexivity|]. intros fp (k & ->) fp' (j & J). unfold fp' in J. change (v_align (plain TLDouble)) with 16 in J. lia.
Qed.
Print Assumptions C43_alignment_refuted.

(** ** C44 *)
(** The signatures of [covered]: every word of every argument is where the callee takes it. *)
Theorem C44_arguments_partial ps po top : Forall param_ok ps -> covered (map akind_of ps) = true -> param_offsets 16 0 0 ps = Some (po, top) ->
  agrees (at_call (length ps) (map akind_of ps)) (taken 0 0 (combine ps po)) /\ takes_all (taken 0 0 (combine ps po)) ps.
Proof. exact (args_agree ps po top). Qed.
Print Assumptions C44_arguments_partial.
(** [covered] holds of all lists of integers, pointers, floats and doubles. *)
Lemma scalar_covered_gen ks : forall g f, Forall scalar_kind ks -> small_fit g f ks = true /\ existsb is_big ks = false.
Proof.
  induction ks as [|k ks IH]; intros g f F; [split; reflexivity|]. inversion F as [|? ? K1 F1]; subst.
  destruct K1 as [-> | ->]; cbn [small_fit existsb is_big orb]; [apply IH; exact F1|]. destruct (Nat.ltb f 8); apply IH; exact F1.
Qed.
Theorem C44_scalars ps po top : Forall param_ok ps -> Forall scalar_kind (map akind_of ps) -> param_offsets 16 0 0 ps = Some (po, top) ->
  agrees (at_call (length ps) (map akind_of ps)) (taken 0 0 (combine ps po)) /\ takes_all (taken 0 0 (combine ps po)) ps.
Proof.
  intros P S0. apply args_agree; [exact P|]. unfold covered. destruct (scalar_covered_gen _ 0 0 S0) as [-> ->]. reflexivity.
Qed.
Print Assumptions C44_scalars.
Ltac kinds := repeat (apply Forall_cons; [vm_compute; auto|]); apply Forall_nil.
Definition st (n : Z) := TStruct 0 n 8.
Definition ex_sig := [TInt false; TDouble; st 16; TLDouble; st 40; TFloat; TPtr (TInt false)].
Definition ex_sig2 := repeat (TLong false) 7 ++ repeat TDouble 10 ++ [TInt false].
Example C44_nonvacuous : (Forall param_ok ex_sig /\ covered (map akind_of ex_sig) = true /\ param_offsets 16 0 0 ex_sig <> None) /\
  (Forall param_ok ex_sig2 /\ Forall scalar_kind (map akind_of ex_sig2) /\ exists po, param_offsets 16 0 0 ex_sig2 = Some (po, 28)).
Proof.
  split.
  - split; [repeat constructor; vm_compute; auto; congruence|]. split; [reflexivity|vm_compute; congruence].
  - split; [repeat constructor; vm_compute; congruence|]. split; [unfold ex_sig2; cbn [repeat app map]; kinds|]. eexists. vm_compute. reflexivity.
Qed.
(** Variadic functions: va_arg steps through memory from __va_area__, at [off] in the frame,
    8 bytes at a time (include/stdarg.h). Argument [k] after the named ones is in a register
    that is stored there, or on the stack right there: the frame pointer is 16 + [va_size ps]
    below sp at the call. *)
Theorem C44_variadic ps va po top off k : Forall param_ok ps -> Forall scalar_kind (map akind_of ps) -> Forall scalar_kind va ->
  param_offsets 16 0 0 ps = Some (po, top) -> align_to top 8 = Some off -> (k < length va)%nat ->
  let call := at_call (length ps) (map akind_of ps ++ va) in
  (exists r, In (GReg r, AW (length ps + k) 0) (fst call) /\ In (r, off + 8 * Z.of_nat k) (va_spill (taken_g 0 0 (combine ps po)) off)) \/
  (exists p, nth_error (snd call) p = Some (AW (length ps + k) 0) /\ 8 * Z.of_nat p + va_size ps = off - 16 + 8 * Z.of_nat k).
Proof. exact (variadic_agree ps va po top off k). Qed.
Print Assumptions C44_variadic.
Example C44_variadic_nonvacuous : let ps := [TPtr (TChar false); TDouble] in
  Forall param_ok ps /\ Forall scalar_kind (map akind_of ps) /\ (exists po, param_offsets 16 0 0 ps = Some (po, 16)) /\ align_to 16 8 = Some 16 /\
  let call := at_call 2 (map akind_of ps ++ repeat KInt 9) in
  In (GReg 1, AW 2 0) (fst call) /\ In (1%nat, 16) (va_spill 1 16) /\ nth_error (snd call) 0 = Some (AW 9 0) /\ va_size ps = 56.
Proof. cbv zeta. split; [repeat constructor; vm_compute; congruence|]. split; [cbn [map]; kinds|]. split; [eexists; vm_compute; reflexivity|]. vm_compute. intuition. Qed.

(** The full claim is false. A struct of one word after the registers are used up, behind an
    int on the stack: the caller puts the struct first. *)
Definition disagree (ps : list ty) : Prop := exists po top, param_offsets 16 0 0 ps = Some (po, top) /\ Forall param_ok ps /\
  ~ agrees (at_call (length ps) (map akind_of ps)) (taken 0 0 (combine ps po)).
Ltac disagree i j := eexists _, _; split; [vm_compute; reflexivity|]; split; [repeat constructor; vm_compute; auto; congruence|];
  let H := fresh in intros H; specialize (H i _ j _ eq_refl eq_refl); vm_compute in H.
Theorem C44_struct_order_refuted : disagree (repeat (TInt false) 9 ++ [st 8]).
Proof. disagree 8%nat 0%nat. destruct H as (p & P & N). destruct p as [|p]; [discriminate|]. destruct p; discriminate. Qed.
Print Assumptions C44_struct_order_refuted.
(** A double after a struct on the stack: fa0 gets a word of the struct. *)
Theorem C44_double_after_struct_refuted : disagree (repeat (TInt false) 8 ++ [st 8; TDouble]).
Proof. disagree 9%nat 0%nat. intuition congruence. Qed.
Print Assumptions C44_double_after_struct_refuted.
(** The same with a long double. *)
Theorem C44_double_after_ldouble_refuted : disagree (repeat (TInt false) 8 ++ [TLDouble; TDouble]).
Proof. disagree 9%nat 0%nat. intuition congruence. Qed.
Print Assumptions C44_double_after_ldouble_refuted.
(** A parameter after an empty struct *)
Theorem C44_empty_struct_refuted : disagree [st 0; TInt false].
Proof. disagree 1%nat 0%nat. intuition congruence. Qed.
Print Assumptions C44_empty_struct_refuted.
(** A struct of more than two words and an int on the stack: the callee looks for the struct
    itself in front, the caller has put it behind. *)
Theorem C44_big_struct_refuted : disagree ([st 24] ++ repeat (TInt false) 8).
Proof. disagree 0%nat 0%nat. destruct H as (p & P & N). destruct p as [|p]; discriminate. Qed.
Print Assumptions C44_big_struct_refuted.
