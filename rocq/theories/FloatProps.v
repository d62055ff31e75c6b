(** Property C72: expressions with float and double. *)
From Verif Require Import Base TypeModel IntArith NodeModel NodeProofs ValSpec NodeSpec EvalModel EvalSpec EvalProofs EvalProps FpSpec RvSpec GenModel GenSpec RvProofs GenArith GenBits GenRun GenBytes GenProofs GenSim GenShape GenProps FloatSpec FloatProofs FloatRun FloatSim.
From Coq Require Import ZifyBool ZifyNat.
Local Notation length := List.length.

(** The code leaves the value in fa0 (NaN-boxed) or a0, has the same effect on memory, and
    restores sp and what is above it. Missing: long double, calls, and assignments of
    structures and to bit-fields in an expression where something is floating; [fqual] leaves
    out what is wrong (refuted below). *)
Theorem C72_float_expression_code_partial E W goff fp room n lv s c s' q m v m' : setting E W goff fp ->
  fwell_typed n = true -> fqual lv n = Some q -> gen goff lv n s = Some (c, s') -> fev E lv n m = Some (v, m') ->
  runs E W fp room c (need n) m (holds lv (ntype n) q v) m'.
Proof. intros HS WT Q G EV. exact (fgen_correct E W goff fp room HS n lv s c s' q m v m' G Q WT EV). Qed.
Print Assumptions C72_float_expression_code_partial.

(** d = (f * 2 < i) ? (double)i / 3 : -d, with f = 1.5f and i = 7: d is 7/3 *)
Definition fx_f : node := NVar (VLocal 3) TFloat.
Definition fx_d : node := NVar (VLocal 4) TDouble.
Definition fx_node : node :=
  NAssign fx_d (mk_cond (mk_bin Lt (mk_bin Mul fx_f (int_ 2)) (loc 0)) (mk_bin Div (NCast TDouble (loc 0)) (int_ 3)) (mk_neg fx_d)).
Definition fx_mem : mem := le_store (le_store (fun _ => 0) (ex_fp - 16) 4 0x3FC00000) (ex_fp - 4) 4 7.
Example C72_nonvacuous : setting ex_env ex_world ex_goff ex_fp /\ fwell_typed fx_node = true /\ fqual false fx_node = Some 64 /\
  (exists c s', gen ex_goff false fx_node (GS 0 1) = Some (c, s') /\ (30 < length c)%nat) /\
  value_and (fev ex_env false fx_node fx_mem) (fun m' => le_load m' (ex_fp - 32) 8) = Some (0x4002AAAAAAAAAAAB, 0x4002AAAAAAAAAAAB).
Proof.
  split; [apply ex_setting|]. split; [vm_compute; reflexivity|]. split; [vm_compute; reflexivity|].
  split; [do 2 eexists; split; [vm_compute; reflexivity|cbn; lia]|]. vm_compute; reflexivity.
Qed.

(** A value of a floating type is a bit pattern of its width. *)
Theorem C72_float_value_range E n m v m' f : env_ok E -> fwell_typed n = true -> fmt_of (ntype n) = Some f ->
  fev E false n m = Some (v, m') -> 0 <= v < 2 ^ width f.
Proof. intros HE WT F EV. pose proof (fev_ok E n HE false m v m' WT EV) as V. unfold fval_ok in V. now rewrite F in V. Qed.
Print Assumptions C72_float_value_range.

(** ** The operators *)
(** C11 6.3.1.8 for arithmetic operands of which one is floating: the format they are
    converted to. There is no long double here. *)
Definition arithmetic (t : ty) : bool := match t with TBool | TChar _ | TShort _ | TInt _ | TLong _ | TEnum | TFloat | TDouble => true | _ => false end.
Definition common_format (a b : ty) : option fmt :=
  if arithmetic a && arithmetic b
  then match fmt_of a, fmt_of b with
       | Some B64, _ | _, Some B64 => Some B64
       | Some B32, _ | _, Some B32 => Some B32
       | None, None => None
       end
  else None.
Definition ty_of_fmt (f : fmt) : ty := match f with B32 => TFloat | B64 => TDouble end.
Definition comparison (o : bop) : bool := match o with Eq | Ne | Lt | Le => true | _ => false end.
Definition four (o : bop) : bool := match o with Add | Sub | Mul | Div => true | _ => false end.
Lemma common_type a b f : common_format a b = Some f -> get_common_type a b = ty_of_fmt f.
Proof. unfold common_format. destruct a, b; cbn; try discriminate; intros H; injection H as <-; reflexivity. Qed.
(** An operator node as built for operands of which one is floating: well typed, of type
    int or of the common type; both operands are converted, the right one first. *)
Theorem C72_float_operator o l r f : comparison o || four o = true -> common_format (ntype l) (ntype r) = Some f -> fwell_typed l = true -> fwell_typed r = true ->
  fwell_typed (mk_bin o l r) = true /\ ntype (mk_bin o l r) = (if comparison o then TInt false else ty_of_fmt f) /\
  forall E m y m1 x m2 x' y', fev E false r m = Some (y, m1) -> fev E false l m1 = Some (x, m2) ->
    fcast (ntype r) (ty_of_fmt f) y = Some y' -> fcast (ntype l) (ty_of_fmt f) x = Some x' ->
    fev E false (mk_bin o l r) m = let* v := fbin_val o f x' y' in Some (v, m2).
Proof.
  intros O C WL WR. pose proof (common_type _ _ _ C) as T.
  assert (IC : forall n, int_only (NCast (ty_of_fmt f) n) = false) by (intros n; destruct f; reflexivity).
  assert (FM : fmt_of (ty_of_fmt f) = Some f) by (destruct f; reflexivity).
  assert (FS : fsame (ty_of_fmt f) (ty_of_fmt f) = true) by (destruct f; reflexivity).
  assert (IB : forall o t a b, int_only (NBin o t (NCast (ty_of_fmt f) a) b) = false).
  { intros. cbn [int_only ntype]. fold (int_only (NCast (ty_of_fmt f) a)). change (int_only (NCast (ty_of_fmt f) a)) with (negb (is_float (ty_of_fmt f)) && int_only a) in *. destruct f; cbn [ty_of_fmt is_float negb andb]; apply andb_false_r. }
  assert (EV : forall t E m y m1 x m2 x' y', fev E false r m = Some (y, m1) -> fev E false l m1 = Some (x, m2) ->
    fcast (ntype r) (ty_of_fmt f) y = Some y' -> fcast (ntype l) (ty_of_fmt f) x = Some x' ->
    fev E false (NBin o t (NCast (ty_of_fmt f) l) (NCast (ty_of_fmt f) r)) m = let* v := fbin_val o f x' y' in Some (v, m2)).
  { intros t E m y m1 x m2 x' y' ER EL CR CL.
    assert (R : fev E false (NCast (ty_of_fmt f) r) m = Some (y', m1)) by (cbn [fev]; rewrite IC, ER; cbv iota beta; rewrite CR; reflexivity).
    assert (L : fev E false (NCast (ty_of_fmt f) l) m1 = Some (x', m2)) by (cbn [fev]; rewrite IC, EL; cbv iota beta; rewrite CL; reflexivity).
    remember (NCast (ty_of_fmt f) r) as R0. remember (NCast (ty_of_fmt f) l) as L0. assert (NT : ntype L0 = ty_of_fmt f) by (subst; reflexivity).
    assert (IB' : int_only (NBin o t L0 R0) = false) by (subst; apply IB). cbn [fev]. rewrite IB', R. cbv iota beta. rewrite L. cbv iota beta. rewrite NT, FM. reflexivity. }
  assert (WC : forall n, fwell_typed n = true -> fwell_typed (NCast (ty_of_fmt f) n) = true) by (intros n W; cbn [fwell_typed]; now rewrite IC).
  assert (WB : forall t, match o with Eq | Ne | Lt | Le => same_repr t (TInt false) | _ => fsame t (ty_of_fmt f) end = true -> fwell_typed (NBin o t (NCast (ty_of_fmt f) l) (NCast (ty_of_fmt f) r)) = true).
  { intros t TT. pose proof (WC l WL) as W1. pose proof (WC r WR) as W2. remember (NCast (ty_of_fmt f) r) as R0. remember (NCast (ty_of_fmt f) l) as L0.
    assert (NL : ntype L0 = ty_of_fmt f) by (subst; reflexivity). assert (NR : ntype R0 = ty_of_fmt f) by (subst; reflexivity).
    assert (IB' : int_only (NBin o t L0 R0) = false) by (subst; apply IB). cbn [fwell_typed]. rewrite IB', W1, W2, NL, NR, FS. destruct o; try discriminate O; rewrite TT; reflexivity. }
  unfold mk_bin, mk_compare, mk_arith. rewrite T.
  destruct o; try discriminate O; (split; [apply WB; solve [reflexivity|exact FS]|]); (split; [reflexivity|]); intros; eapply EV; eauto.
Qed.
Print Assumptions C72_float_operator.
(** f * 2 with f = 1.5f is 3.0f; f < 1.5 is 0; the operand of type int is converted to float *)
Example C72_operator_nonvacuous : common_format (ntype fx_f) (ntype (int_ 2)) = Some B32 /\ common_format (ntype fx_d) (ntype fx_f) = Some B64 /\ fwell_typed fx_f = true /\
  option_map fst (fev ex_env false fx_f fx_mem) = Some 0x3FC00000 /\ fcast (TInt false) TFloat 2 = Some 0x40000000 /\ fcast TFloat TDouble 0x3FC00000 = Some 0x3FF8000000000000 /\
  option_map fst (fev ex_env false (mk_bin Mul fx_f (int_ 2)) fx_mem) = Some 0x40400000 /\
  option_map fst (fev ex_env false (mk_bin Lt fx_f (NNum TDouble 0x3FF8000000000000)) fx_mem) = Some 0.
Proof. repeat split; vm_compute; reflexivity. Qed.

(** ** The encodings of the specification *)
(** Every bit pattern that is not a NaN is read and written back unchanged. *)
Lemma fields f z : 0 <= z < 2 ^ width f -> exists s e m, z = s * 2 ^ (width f - 1) + e * 2 ^ mbits f + m /\ (s = 0 \/ s = 1) /\ 0 <= e < 2 ^ ebits f /\ 0 <= m < 2 ^ mbits f /\
  z / 2 ^ (width f - 1) mod 2 = s /\ z / 2 ^ mbits f mod 2 ^ ebits f = e /\ z mod 2 ^ mbits f = m.
Proof.
  intros Z. exists (z / 2 ^ (width f - 1) mod 2), (z / 2 ^ mbits f mod 2 ^ ebits f), (z mod 2 ^ mbits f).
  assert (D : z / 2 ^ (width f - 1) = z / 2 ^ mbits f / 2 ^ ebits f) by (rewrite Z.div_div by (destruct f; cbn; lia); f_equal; destruct f; reflexivity).
  rewrite D. assert (P : 2 ^ (width f - 1) = 2 ^ mbits f * 2 ^ ebits f) by (destruct f; reflexivity). rewrite P.
  assert (PM : 0 < 2 ^ mbits f) by (destruct f; cbn; lia). assert (PE : 0 < 2 ^ ebits f) by (destruct f; cbn; lia).
  assert (PW : 2 ^ width f = 2 * (2 ^ mbits f * 2 ^ ebits f)) by (destruct f; reflexivity). rewrite PW in Z.
  set (M := 2 ^ mbits f) in *. set (X := 2 ^ ebits f) in *. clearbody M X. clear D P PW.
  pose proof (Z.div_mod z M ltac:(lia)) as D1. pose proof (Z.mod_pos_bound z M PM) as B1. pose proof (Z.div_mod (z / M) X ltac:(lia)) as D2. pose proof (Z.mod_pos_bound (z / M) X PE) as B2.
  set (a := z / M) in *. set (m := z mod M) in *. set (e := a mod X) in *. set (s := a / X) in *.
  assert (S : s = 0 \/ s = 1) by nia. assert (SM : s mod 2 = s) by (apply Z.mod_small; lia). rewrite SM. split; [nia|]. split; [exact S|]. split; [exact B2|]. split; [exact B1|auto].
Qed.
Theorem C72_encodings f z : 0 <= z < 2 ^ width f -> decode f z <> SpecFloat.S754_nan -> encode f (decode f z) = z.
Proof.
  intros Z N. destruct (fields f z Z) as (s & e & m & E0 & S & Be & Bm & Fs & Fe & Fm). unfold decode in *. rewrite Fs, Fe, Fm in *. cbv zeta in *. clear Fs Fe Fm.
  assert (SG : (if s =? 1 then 2 ^ (width f - 1) else 0) = s * 2 ^ (width f - 1)) by (destruct S as [->| ->]; [reflexivity|symmetry; apply Z.mul_1_l]).
  destruct (e =? 2 ^ ebits f - 1) eqn:EI.
  - destruct (m =? 0) eqn:EM; [|now contradiction N]. unfold encode. rewrite SG. rewrite Z.mod_small by lia. lia.
  - destruct (e =? 0) eqn:EZ.
    + destruct m as [|p|p]; [| |lia]; unfold encode; cbv zeta; rewrite SG; [|replace (Z.pos p <? 2 ^ mbits f) with true by lia]; rewrite Z.mod_small by lia; lia.
    + destruct (m + 2 ^ mbits f) as [|p|p] eqn:EP; [lia| |lia]. unfold encode. cbv zeta. rewrite SG. replace (Z.pos p <? 2 ^ mbits f) with false by lia.
      replace (e - 1 + emin f - emin f + 1) with e by lia. rewrite Z.mod_small by lia. lia.
Qed.
Print Assumptions C72_encodings.
(** 0.1f, the smallest subnormal double, minus infinity *)
Example C72_encodings_nonvacuous : decode B32 0x3DCCCCCD = SpecFloat.S754_finite false 13421773 (-27) /\ decode B64 1 = SpecFloat.S754_finite false 1 (-1074) /\ decode B64 0xFFF0000000000000 = SpecFloat.S754_infinity true /\ 0 <= 0x3DCCCCCD < 2 ^ width B32.
Proof. repeat split; vm_compute; congruence. Qed.

(** ** What [fqual] leaves out is wrong *)
Definition fwrong (n : node) (v : Z) : Prop :=
  fwell_typed n = true /\ exists c s' rs ms, gen ex_goff false n (GS 0 1) = Some (c, s') /\ regs_ok rs /\ rs Fp = ex_fp /\
    option_map fst (fev ex_env false n ms) = Some v /\
    forall sym, exists x y, option_map (fun r => (fst r (A 0), fst r (FA 0))) (exec_list sym c rs ms) = Some (x, y) /\
      match fmt_of (ntype n) with Some f => y <> box f v | None => ~ rep (8 * size_of (ntype n)) v x end.
Ltac fwrong m := unfold fwrong; split; [vm_compute; reflexivity|]; do 2 eexists; exists ex_regs, m; split; [vm_compute; reflexivity|]; split; [apply ex_regs_ok|];
  split; [reflexivity|]; split; [vm_compute; reflexivity|]; intros sym; do 2 eexists; split; [vm_compute; reflexivity|]; vm_compute; discriminate.
(** (_Bool)d with d = 0.0: the code looks at a0, which has the address *)
Theorem C72_to_bool_refuted : fwrong (NCast TBool fx_d) 0.
Proof. fwrong (fun _ : Z => 0). Qed.
(** (unsigned long)(unsigned)d with d = 3e9: fcvt.wu.d sign-extends *)
Theorem C72_to_unsigned_refuted : fwrong (NCast (TLong true) (NCast (TInt true) fx_d)) 3000000000.
Proof. fwrong (le_store (fun _ : Z => 0) (ex_fp - 32) 8 0x41E65A0BC0000000). Qed.
(** (double)(enum E)-1: converted as unsigned long *)
Theorem C72_from_enum_refuted : fwrong (NCast TDouble (NCast TEnum (int_ (-1)))) 0xBFF0000000000000.
Proof. fwrong (fun _ : Z => 0). Qed.
(** 1 && d with d = 0.0: the second operand is tested as the first one, an int, is *)
Theorem C72_logand_refuted : fwell_typed (NLogAnd (int_ 1) fx_d) = true /\ option_map fst (fev ex_env false (NLogAnd (int_ 1) fx_d) (fun _ => 0)) = Some 0 /\ exists c s' st', gen ex_goff false (NLogAnd (int_ 1) fx_d) (GS 0 1) = Some (c, s') /\ regs_ok ex_regs /\ star ex_world c (St 0 ex_regs (fun _ => 0)) st' /\ pc st' = length c /\ rg st' (A 0) = 1.
Proof.
  split; [vm_compute; reflexivity|]. split; [vm_compute; reflexivity|]. do 3 eexists. split; [vm_compute; reflexivity|]. split; [apply ex_regs_ok|]. split; [|shelve].
  repeat (eapply star_step; [lazy [step nth_error pc]; cbn; reflexivity|]). apply star_refl.
Unshelve.
  split; vm_compute; reflexivity.
Qed.
