(** Properties C34, C37-C40 (expressions). *)
From Verif Require Import Base TypeModel IntArith NodeModel NodeProofs ValSpec NodeSpec EvalModel EvalSpec EvalProofs EvalProps RvSpec GenModel GenSpec RvProofs GenArith GenBits GenRun GenBytes GenProofs GenSim GenShape.
From Coq Require Import ZifyBool ZifyNat.
Local Notation length := List.length.

(** ** C37 *)
(** A conversion from an unsigned type to the signed type of the same size (less than
    64 bits), and one to an enum type, for which the compiler prints nothing. *)
Definition unsigned_to_same_signed (f t : ty) : bool :=
  match int_repr f, int_repr t with Some (false, n), Some (true, n') => (n =? n') && (n <? 64) | _, _ => false end.
Definition to_enum (f t : ty) : bool := match t with TEnum => match f with TEnum | TBool | TChar _ | TShort _ | TInt false => false | _ => true end | _ => false end.
Lemma cast_full f t : int_repr f <> None -> int_repr t <> None -> unsigned_to_same_signed f t = false -> to_enum f t = false -> cast_qual f t 64 = 64.
Proof.
  destruct f as [| |[]|[]|[]|[]| | | | | | | | | |], t as [| |[]|[]|[]|[]| | | | | | | | | |]; cbn; intros; try reflexivity; congruence.
Qed.
Theorem C37_cast_code sym f t s c s' x rs ms : int_repr f <> None -> int_repr t <> None -> unsigned_to_same_signed f t = false -> to_enum f t = false ->
  cast f t s = Some (c, s') -> val_of f x = true -> regs_ok rs -> rep 64 x (rs (A 0)) ->
  exists v rs', conv t x = Some v /\ exec_list sym c rs ms = Some (rs', ms) /\ rep 64 v (rs' (A 0)).
Proof.
  intros F T U En CA V RO P. assert (CV : convertible f t = true) by (destruct t; try (now contradiction T); destruct f; try reflexivity; now contradiction F).
  assert (CX : exists v, conv t x = Some v) by (destruct t; cbn; try (eexists; reflexivity); now contradiction T). destruct CX as [v CX].
  destruct (cast_run (World sym (fun _ => 0) (fun _ => 0) (fun _ => None) (fun _ _ _ => None)) f t s c s' rs ms x CA CV ltac:(congruence) RO) as [_ (rs' & X & R)].
  exists v, rs'. split; auto. split; auto. rewrite R. rewrite <- (cast_full f t) by auto. apply (cast_ok f t 64 x v); auto; try lia; [|apply RO].
  intros _. unfold val_in, repr_or_addr. unfold val_of in V. destruct (int_repr f) as [(sg, n)|]; [|congruence]. exact V.
Qed.
Print Assumptions C37_cast_code.
(** In every case the low bits, as many as the type has, are right: enough for a store. *)
Theorem C37_cast_code_low_bits sym f t s c s' x rs ms : int_repr f <> None -> int_repr t <> None ->
  cast f t s = Some (c, s') -> val_of f x = true -> regs_ok rs -> rep 64 x (rs (A 0)) ->
  exists v rs', conv t x = Some v /\ exec_list sym c rs ms = Some (rs', ms) /\ rep (8 * size_of t) v (rs' (A 0)).
Proof.
  intros F T CA V RO P. assert (CV : convertible f t = true) by (destruct t; try (now contradiction T); destruct f; try reflexivity; now contradiction F).
  assert (CX : exists v, conv t x = Some v) by (destruct t; cbn; try (eexists; reflexivity); now contradiction T). destruct CX as [v CX].
  destruct (cast_run (World sym (fun _ => 0) (fun _ => 0) (fun _ => None) (fun _ _ _ => None)) f t s c s' rs ms x CA CV ltac:(congruence) RO) as [_ (rs' & X & R)].
  exists v, rs'. split; auto. split; auto. rewrite R. apply (rep_le (8 * size_of t) (cast_qual f t 64)).
  { destruct f as [| |[]|[]|[]|[]| | | | | | | | | |], t as [| |[]|[]|[]|[]| | | | | | | | | |]; try (now contradiction F); try (now contradiction T); (split; [|vm_compute]; discriminate). }
  apply (cast_ok f t 64 x v); auto; try lia; [|apply RO].
  intros _. unfold val_in, repr_or_addr. unfold val_of in V. destruct (int_repr f) as [(sg, n)|]; [|congruence]. exact V.
Qed.
Print Assumptions C37_cast_code_low_bits.
Definition zreg (a0 : Z) : regs := fun r => match r with A 0 => a0 | _ => 0 end.
Lemma zreg_ok a : 0 <= a < 2 ^ 64 -> regs_ok (zreg a).
Proof. intros H. split; [reflexivity|]. intros r. destruct r; cbn; try lia. match goal with |- context [match ?i with O => _ | S _ => _ end] => destruct i end; lia. Qed.
(** (signed char)-200 from int, and (unsigned short)-1 from long *)
Example C37_nonvacuous : exists c s', cast (TInt false) (TChar false) (GS 0 0) = Some (c, s') /\ c <> [] /\
  val_of (TInt false) (-200) = true /\ regs_ok (zreg (2 ^ 64 - 200)) /\ rep 64 (-200) (zreg (2 ^ 64 - 200) (A 0)) /\ conv (TChar false) (-200) = Some 56.
Proof. do 2 eexists. split; [vm_compute; reflexivity|]. split; [discriminate|]. split; [reflexivity|]. split; [apply zreg_ok; lia|]. split; reflexivity. Qed.
(** (int)4294967295u is -1; the register still holds 4294967295. *)
Theorem C37_unsigned_to_int_refuted : exists f t x v c s' rs,
  int_repr f <> None /\ int_repr t <> None /\ cast f t (GS 0 0) = Some (c, s') /\ val_of f x = true /\ regs_ok rs /\ rep 64 x (rs (A 0)) /\ conv t x = Some v /\
  forall sym ms, exists rs', exec_list sym c rs ms = Some (rs', ms) /\ ~ rep 64 v (rs' (A 0)).
Proof.
  exists (TInt true), (TInt false), (2 ^ 32 - 1), (-1), [], (GS 0 0), (zreg (2 ^ 32 - 1)).
  split; [discriminate|]. split; [discriminate|]. split; [reflexivity|]. split; [reflexivity|]. split; [apply zreg_ok; lia|]. split; [reflexivity|]. split; [reflexivity|].
  intros. eexists. split; [reflexivity|]. intros H. vm_compute in H. discriminate.
Qed.
(** (enum e)4294967296 is 0; the register still holds 4294967296. *)
Theorem C37_to_enum_refuted : exists f x v c s' rs,
  int_repr f <> None /\ cast f TEnum (GS 0 0) = Some (c, s') /\ val_of f x = true /\ regs_ok rs /\ rep 64 x (rs (A 0)) /\ conv TEnum x = Some v /\
  forall sym ms, exists rs', exec_list sym c rs ms = Some (rs', ms) /\ ~ rep 64 v (rs' (A 0)).
Proof.
  exists (TLong false), (2 ^ 32), 0, [], (GS 0 0), (zreg (2 ^ 32)).
  split; [discriminate|]. split; [reflexivity|]. split; [reflexivity|]. split; [apply zreg_ok; lia|]. split; [reflexivity|]. split; [reflexivity|].
  intros. eexists. split; [reflexivity|]. intros H. vm_compute in H. discriminate.
Qed.

(** ** C38 *)
(** The code computes the value, as far as [qual] says, and has the same effect on
    memory; sp and the stack above it are as before. *)
Theorem C38_expression_code E W goff fp room n lv s c s' q m v m' : setting E W goff fp ->
  well_typed n = true -> qual lv n = Some q -> gen goff lv n s = Some (c, s') -> ev E lv n m = Some (v, m') ->
  computes E W fp room c q (need n) m v m'.
Proof. intros HS WT Q G EV. exact (gen_correct E W goff fp room HS n lv s c s' q m v m' G Q WT EV). Qed.
Print Assumptions C38_expression_code.

(** An environment with four int variables at fp-16, a struct at fp-32, and a function at
    4096 that returns its argument plus one. *)
Definition ex_fp : Z := 2 ^ 20.
Definition ex_goff (k : nat) : Z := match k with 0%nat => -4 | 1%nat => -8 | 2%nat => -12 | 3%nat => -16 | _ => -32 end.
Definition ex_env : env :=
  Env (fun x => match x with VLocal k => (ex_fp + ex_goff k) mod 2 ^ 64 | VGlobal _ => 4096 end)
      (fun a => (ex_fp - 32 <=? a) && (a <? ex_fp))
      (fun fa tys t vs m => match fa, tys, t, vs with
                            | 4096, [TInt false], TInt false, [x] => if in_range true 32 (x + 1) then Some (x + 1, m) else None
                            | _, _, _, _ => None end).
Definition ex_world : world :=
  World (fun _ => 4096) (fun _ => 0) (fun _ => 0) (fun _ => None) (fun fa rs ms => Some (setr rs (A 0) (wrap (sx 32 (rs (A 0) + 1))), ms)).
Lemma ex_setting : setting ex_env ex_world ex_goff ex_fp.
Proof.
  constructor.
  - intros [k|s]; cbn; [apply mod_pow_range; lia|lia].
  - reflexivity.
  - reflexivity.
Qed.
Lemma ex_calls room p : call_ok ex_env ex_world ex_fp room p.
Proof.
  intros k r fa tys t vs m v m' rs ms lo NC FA C _ AR RO FP SM FS LO. cbn in C.
    assert (X : t = TInt false /\ exists x, vs = [x] /\ tys = [TInt false] /\ in_range true 32 (x + 1) = true /\ v = x + 1 /\ m' = m).
    { assert (N : fa = 4096 \/ fa <> 4096) by lia. destruct N as [->|N].
      - destruct tys as [|[| | | |[]| | | | | | | | | | |] [|? ?]]; try discriminate C. destruct t as [| | | |[]| | | | | | | | | | |]; try discriminate C.
        destruct vs as [|x [|? ?]]; try discriminate C. destruct (in_range true 32 (x + 1)) eqn:B; [|discriminate]. split; auto. exists x. repeat split; congruence.
      - exfalso. clear - C N. destruct fa as [|p|p]; try discriminate C. do 13 (destruct p as [p|p|]; try discriminate C; try (now contradiction N)). }
    destruct X as (-> & x & -> & -> & B & -> & ->). do 2 eexists. split; [apply star_one; unfold step; cbn [pc rg mm]; rewrite NC; reflexivity|].
    pose proof (AR 0%nat _ _ eq_refl eq_refl) as P. unfold arg_at in P. cbn [Nat.ltb Nat.leb] in P. change (8 * size_of (TInt false)) with 32 in P.
    split; [|split; [apply regs_ok_upd; auto; apply wrap_rng|repeat split; auto]].
    rewrite setr_same by discriminate. change (ret_bits (TInt false)) with 64. apply rep_wrap; [lia|].
    unfold in_range in B. rewrite (sx_unique 32 (rs (A 0) + 1) (x + 1)); [apply rep_refl|lia| |change (2 ^ (32 - 1)) with 2147483648 in *; lia].
    apply eqm_add; [lia|exact P|apply eqm_refl].
Qed.
Definition loc (k : nat) : node := NVar (VLocal k) (TInt false).
(** a = (b < 3 && c) ? f(b) * 2 : -c *)
Definition ex_node : node :=
  NAssign (loc 0) (mk_cond (NLogAnd (mk_bin Lt (loc 1) (int_ 3)) (loc 2))
    (mk_bin Mul (NCall (NVar (VGlobal (bs "f")) (TFunc (TInt false))) [loc 1] (TInt false)) (int_ 2)) (mk_neg (loc 2))).
Definition ex_mem : mem := le_store (le_store (fun _ => 0) (ex_fp - 8) 4 2) (ex_fp - 12) 4 9.
(** The value of an expression and something of the memory after it. *)
Definition value_and (r : option (Z * mem)) (f : mem -> Z) : option (Z * Z) := option_map (fun x => (fst x, f (snd x))) r.
Example C38_nonvacuous : setting ex_env ex_world ex_goff ex_fp /\ well_typed ex_node = true /\ qual false ex_node = Some 64 /\
  (exists c s', gen ex_goff false ex_node (GS 0 1) = Some (c, s') /\ (20 < length c)%nat) /\
  value_and (ev ex_env false ex_node ex_mem) (fun m' => le_load m' (ex_fp - 4) 4) = Some (6, 6).
Proof.
  split; [apply ex_setting|]. split; [vm_compute; reflexivity|]. split; [vm_compute; reflexivity|].
  split; [do 2 eexists; split; [vm_compute; reflexivity|cbn; lia]|]. vm_compute; reflexivity.
Qed.

(** What [qual] leaves out is wrong. The code of these expressions is straight-line. *)
Definition wrong_code (n : node) (v : Z) : Prop :=
  well_typed n = true /\ exists c s' rs ms, gen ex_goff false n (GS 0 1) = Some (c, s') /\ regs_ok rs /\ rs Fp = ex_fp /\
    option_map fst (ev ex_env false n ms) = Some v /\
    forall sym, exists x, option_map (fun r => fst r (A 0)) (exec_list sym c rs ms) = Some x /\ ~ rep (8 * size_of (ntype n)) v x.
Definition ex_regs : regs := fun r => match r with Fp => ex_fp | Sp => ex_fp - 64 | _ => 0 end.
Lemma ex_regs_ok : regs_ok ex_regs. Proof. split; [reflexivity|]. intros []; unfold ex_regs, ex_fp; lia. Qed.
Ltac wrong := unfold wrong_code; split; [vm_compute; reflexivity|]; do 2 eexists; exists ex_regs, (fun _ => 0); split; [vm_compute; reflexivity|]; split; [apply ex_regs_ok|];
  split; [reflexivity|]; split; [vm_compute; reflexivity|]; intros sym; eexists; split; [vm_compute; reflexivity|]; vm_compute; discriminate.
(** 0x8000000000000000ul <= 1ul: compared as signed *)
Theorem C38_unsigned_le_refuted : exists a b, wrong_code (mk_bin Le (NNum (TLong true) a) (NNum (TLong true) b)) 0.
Proof. exists (2 ^ 63), 1. wrong. Qed.
(** (int)4294967295u < 0 *)
Theorem C38_compare_after_cast_refuted : exists x, wrong_code (mk_bin Lt (NCast (TInt false) (NNum (TInt true) x)) (int_ 0)) 1.
Proof. exists (2 ^ 32 - 1). wrong. Qed.
(** (1u - 2u) == 4294967295u: the left side is sign-extended *)
Theorem C38_unsigned_compare_refuted : exists a b x, wrong_code (mk_bin Eq (mk_bin Sub (uint_ a) (uint_ b)) (uint_ x)) 1.
Proof. exists 1, 2, (2 ^ 32 - 1). wrong. Qed.
(** (1u - 2u) / 1ul *)
Theorem C38_unsigned_widen_refuted : exists a b, wrong_code (mk_bin Div (mk_bin Sub (uint_ a) (uint_ b)) (NNum (TLong true) 1)) (2 ^ 32 - 1).
Proof. exists 1, 2. wrong. Qed.

(** ** C39 (expressions) *)
(** The depth counter is unchanged. *)
Theorem C39_depth goff lv n s c s' : gen goff lv n s = Some (c, s') -> 0 <= g_cnt s -> g_depth s' = g_depth s.
Proof. intros G P. destruct (gen_shape goff n lv s c s' G P) as (D & _); [easy|lia]. Qed.
Print Assumptions C39_depth.
(** sp is unchanged, and so is every byte at or above it that is not the program's; below
    it at most [need n] slots are used. *)
Theorem C39_stack E W goff fp room n lv s c s' q m v m' : setting E W goff fp ->
  well_typed n = true -> qual lv n = Some q -> gen goff lv n s = Some (c, s') -> ev E lv n m = Some (v, m') ->
  forall p st lo, code_at p (pc st) c -> linked E W fp room p -> matches E fp m st -> free_stack E room lo st -> lo + 8 * need n <= rg st Sp ->
  exists st', star W p st st' /\ pc st' = (pc st + length c)%nat /\ rg st' Sp = rg st Sp /\ rg st' Fp = rg st Fp /\
    forall a, e_valid E a = false -> rg st Sp <= a -> mm st' a = mm st a.
Proof.
  intros HS WT Q G EV p st lo CA ND MT FS SL. destruct (C38_expression_code E W goff fp room n lv s c s' q m v m' HS WT Q G EV p (pc st) st lo CA ND eq_refl MT FS SL)
    as (st' & ST & PC & _ & MT' & SP & MO). exists st'. repeat split; auto. destruct MT as (_ & F & _), MT' as (_ & F' & _). congruence.
Qed.
Print Assumptions C39_stack.
Example C39_nonvacuous : exists c s' p st, gen ex_goff false ex_node (GS 3 1) = Some (c, s') /\ code_at p (pc st) c /\ linked ex_env ex_world ex_fp 4096 p /\ matches ex_env ex_fp ex_mem st /\
  free_stack ex_env 4096 8192 st /\ 8192 + 8 * need ex_node <= rg st Sp.
Proof.
  do 2 eexists. eexists. exists (St 0 ex_regs ex_mem). split; [vm_compute; reflexivity|]. split; [exists [], []; split; [reflexivity|reflexivity]|].
  split.
  { split; [|apply ex_calls]. match goal with |- NoDup ?l => let l' := eval vm_compute in l in replace l with l' by (vm_compute; reflexivity) end.
    repeat (constructor; [intros K; repeat (destruct K as [K|K]; [discriminate K|]); destruct K|]). constructor. }
  split; [split; [apply ex_regs_ok|split; [reflexivity|intros a _; reflexivity]]|]. split.
  - split; [lia|]. intros a Ha. cbn in Ha |- *. unfold ex_fp in *. lia.
  - vm_compute. discriminate.
Qed.

(** ** C40 *)
(** In terms of bits: the code of an assignment to a bit-field of [w] bits at bit [o] of
    the unit at [a] changes these bits to those of the value and no others. *)
Theorem C40_store_code E W goff fp room l t off o w r s c s' q m v m' : setting E W goff fp ->
  let n := NAssign (NMember l (MInfo t off (Some (o, w)))) r in
  well_typed n = true -> qual false n = Some q -> gen goff false n s = Some (c, s') -> ev E false n m = Some (v, m') ->
  computes E W fp room c 0 (need n) m v m' /\
  exists a m1 x m2, ev E true l m = Some (a, m1) /\ ev E false r m1 = Some (x, m2) /\
    let u := (a + off) mod 2 ^ 64 in let k := Z.to_nat (size_of t) in
    (forall i, 0 <= i < 8 * size_of t -> Z.testbit (le_load m' u k) i = if (o <=? i) && (i <? o + w) then Z.testbit x (i - o) else Z.testbit (le_load m2 u k) i) /\
    (forall b, b < u \/ u + size_of t <= b -> m' b = m2 b).
Proof.
  intros HS n WT Q G EV. split.
  - assert (q = 0) by (subst n; cbn [qual] in Q; repeat opt Q; repeat match type of Q with (if ?b then _ else _) = _ => destruct b end; congruence). subst q.
    eapply C38_expression_code; eauto.
  - subst n. cbn [ev andb m_bf] in EV. destruct (ev E true l m) as [[a m1]|] eqn:EL; [|discriminate]. cbn [m_off] in EV.
    destruct (ev E false r m1) as [[x m2]|] eqn:ER; [|discriminate]. exists a, m1, x, m2. split; auto. split; auto. cbn zeta.
    set (u := (a + off) mod 2 ^ 64) in *. unfold store_bf in EV. destruct (accessible (e_valid E) u (size_of t)) eqn:AC; [|discriminate].
    assert (M' : m' = le_store m2 u (size_of t) (bf_put o w (le_load m2 u (Z.to_nat (size_of t))) x)) by congruence.
    cbn [well_typed] in WT. apply andb_true_iff in WT as [WT _]. apply andb_true_iff in WT as [WT _]. apply andb_true_iff in WT as [MO _].
    apply member_ok_bf in MO as (sg & nn & R & Wn & O0 & OW). destruct (scalar_access t _ R) as [_ SZ]. split.
    + intros i Hi. subst m'. rewrite le_load_store by lia.
      rewrite testbit_mod_pow2 by lia. replace (i <? 8 * size_of t) with true by lia. rewrite andb_true_l.
      rewrite bf_put_bits by lia. rewrite Z.lor_spec, Z.land_spec, Z.lnot_spec by lia.
      assert (TM : forall y, Z.testbit (y * 2 ^ o) i = (o <=? i) && Z.testbit y (i - o)).
      { intros y. rewrite <- Z.shiftl_mul_pow2 by lia. rewrite Z.shiftl_spec by lia. destruct (Z.leb_spec o i); cbn; auto. apply Z.testbit_neg_r. lia. }
      rewrite !TM. destruct (Z.leb_spec o i); cbn [andb negb].
      * rewrite (ones_pow w) by lia. rewrite Z.testbit_ones_nonneg by lia. rewrite testbit_mod_pow2 by lia.
        destruct (Z.ltb_spec i (o + w)), (Z.ltb_spec (i - o) w); try lia; cbn; rewrite ?andb_false_r, ?andb_true_r, ?orb_false_r; reflexivity.
      * now rewrite andb_true_r, orb_false_r.
    + intros b Hb. subst m'. now apply le_store_out.
Qed.
Print Assumptions C40_store_code.
(** Reading it back gives the value converted to the width and signedness of the field. *)
Theorem C40_round_trip t o w z v : 0 <= o -> 0 < w -> bf_get t o w (bf_put o w z v) = if bf_signed t then sx w v else v mod 2 ^ w.
Proof.
  intros O W. unfold bf_get. assert (F : bf_put o w z v / 2 ^ o mod 2 ^ w = v mod 2 ^ w).
  { rewrite bf_put_bits by lia. apply Z.bits_inj'. intros i Hi. rewrite !testbit_mod_pow2 by lia. destruct (i <? w) eqn:L; [|reflexivity]. cbn [andb].
    rewrite <- Z.shiftr_div_pow2 by lia. rewrite Z.shiftr_spec by lia. rewrite Z.lor_spec, Z.land_spec, Z.lnot_spec by lia.
    assert (TM : forall y, Z.testbit (y * 2 ^ o) (i + o) = Z.testbit y i).
    { intros y. rewrite <- Z.shiftl_mul_pow2 by lia. rewrite Z.shiftl_spec by lia. f_equal. lia. }
    rewrite !TM, (ones_pow w), Z.testbit_ones_nonneg, testbit_mod_pow2, L by lia. cbn. now rewrite andb_false_r. }
  rewrite F. destruct (bf_signed t); [|reflexivity]. apply sx_mod; lia.
Qed.
Print Assumptions C40_round_trip.
(** The code of a read delivers [bf_get] of the unit. *)
Theorem C40_load_code E W goff fp room l t off o w s c s' m a m1 : setting E W goff fp -> let n := NMember l (MInfo t off (Some (o, w))) in
  well_typed n = true -> qual false n <> None -> gen goff false n s = Some (c, s') -> ev E true l m = Some (a, m1) ->
  let u := (a + off) mod 2 ^ 64 in accessible (e_valid E) u (size_of t) = true ->
  computes E W fp room c 64 (need n) m (bf_get t o w (le_load m1 u (Z.to_nat (size_of t)))) m1.
Proof.
  intros HS n WT Q G EL u AC. assert (Q64 : qual false n = Some 64).
  { subst n. cbn [qual m_bf m_ty] in *. destruct (qual true l) as [x|]; [|congruence]. destruct (negb (x =? 64)); [congruence|]. destruct (bool_field t); congruence. }
  eapply C38_expression_code; eauto. subst n. cbn [ev m_bf m_ty m_off]. rewrite EL. unfold load_bf. fold u. now rewrite AC.
Qed.
Print Assumptions C40_load_code.
(** struct { unsigned a : 3; int b : 5; }, s.b = -3 *)
Definition ex_bf (t : ty) (o w : Z) : node := NMember (NVar (VLocal 4) (TStruct 1 8 4)) (MInfo t 0 (Some (o, w))).
Example C40_nonvacuous : let n := NAssign (ex_bf (TInt false) 3 5) (int_ (-3)) in
  well_typed n = true /\ qual false n = Some 0 /\ qual false (ex_bf (TInt false) 3 5) = Some 64 /\ (exists c s', gen ex_goff false n (GS 0 1) = Some (c, s')) /\
  value_and (ev ex_env false n ex_mem) (fun m' => le_load m' (ex_fp - 32) 4) = Some (-3, 232).
Proof.
  split; [vm_compute; reflexivity|]. split; [vm_compute; reflexivity|]. split; [vm_compute; reflexivity|]. split; [do 2 eexists; vm_compute; reflexivity|].
  vm_compute; reflexivity.
Qed.
(** The value of an assignment to a bit-field is not the stored value: (s.b = 100) is 4 for
    5 bits, the code leaves 100 (s.b itself is right). *)
Theorem C40_assign_value_refuted : exists v, wrong_code (NAssign (ex_bf (TInt false) 3 5) (int_ 100)) v.
Proof. exists 4. wrong. Qed.
(** A _Bool field of one bit that is 1 reads as -1. *)
Theorem C40_bool_field_refuted : wrong_code (NComma (NAssign (ex_bf TBool 0 1) (NNum TBool 1)) (ex_bf TBool 0 1)) 1.
Proof. wrong. Qed.

(** ** C34 *)
(** The value the compiler folds and the one its code computes are the same (to the
    number of bits the code is right for). *)
Theorem C34_folded_and_computed E W goff fp room n s c s' q m v m' : setting E W goff fp ->
  well_typed n = true -> grade_of n = Some Full -> host_safe n = true -> qual false n = Some q ->
  gen goff false n s = Some (c, s') -> ev E false n m = Some (v, m') ->
  exists x, eval n = EOk x None /\ computes E W fp room c q (need n) m x m'.
Proof.
  intros HS WT GR HSF Q G EV. exists (sx 64 v). split; [eapply C33_const_expr; eauto; exact (set_env _ _ _ _ HS)|].
  pose proof (C38_expression_code E W goff fp room n false s c s' q m v m' HS WT Q G EV) as C. intros p k st lo CA ND PC MT FS SL.
  destruct (C p k st lo CA ND PC MT FS SL) as (st' & ST & PC' & R & REST). exists st'. split; auto. split; auto. split; auto.
  pose proof (qual_range _ _ _ Q). unfold rep in *. rewrite R. symmetry. apply mod_sx; lia.
Qed.
Print Assumptions C34_folded_and_computed.
Example C34_nonvacuous : well_typed sample = true /\ grade_of sample = Some Full /\ host_safe sample = true /\ qual false sample = Some 64 /\
  (exists c s', gen ex_goff false sample (GS 0 1) = Some (c, s')) /\ value_and (ev ex_env false sample ex_mem) (fun _ => 0) = Some (44, 0).
Proof.
  do 4 (split; [vm_compute; reflexivity|]). split; [do 2 eexists; vm_compute; reflexivity|]. vm_compute; reflexivity.
Qed.
(** They do not agree on everything: !(4294967295u + 1u) folds to 0; the code, with its
    32-bit addition, gives 1. *)
Theorem C34_disagree_refuted : exists n, well_typed n = true /\ eval n = EOk 0 None /\
  exists c s', gen ex_goff false n (GS 0 1) = Some (c, s') /\ forall sym, option_map (fun r => fst r (A 0)) (exec_list sym c ex_regs (fun _ => 0)) = Some 1.
Proof.
  exists (NNot (mk_bin Add (uint_ 4294967295) (uint_ 1))). split; [vm_compute; reflexivity|]. split; [vm_compute; reflexivity|].
  do 2 eexists. split; [vm_compute; reflexivity|]. intros sym. vm_compute; reflexivity.
Qed.
