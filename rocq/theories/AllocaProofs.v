From Verif Require Import Base IntArith ValSpec RvSpec GenModel GenSpec RvProofs GenBits GenBytes GenRun AllocaModel AllocaSpec.
From Coq Require Import ZifyBool ZifyNat.
Local Notation length := List.length.
Local Arguments Z.mul : simpl never.
Local Arguments Z.add : simpl never.
Local Arguments Z.sub : simpl never.

Lemma land_m8 z : 0 <= z < 2 ^ 64 -> Z.land z (wrap (-8)) = z / 8 * 8.
Proof.
  intros B. change (wrap (-8)) with (2 ^ 64 - 8). apply Z.bits_inj'. intros i I. rewrite Z.land_spec.
  replace (z / 8 * 8) with (Z.shiftl (Z.shiftr z 3) 3) by (rewrite Z.shiftl_mul_pow2, Z.shiftr_div_pow2 by lia; reflexivity).
  replace (2 ^ 64 - 8) with (Z.shiftl (Z.ones 61) 3) by reflexivity. rewrite !Z.shiftl_spec by lia.
  destruct (Z_lt_le_dec i 3).
  - rewrite !(Z.testbit_neg_r _ (i - 3)) by lia. apply andb_false_r.
  - rewrite Z.shiftr_spec by lia. replace (i - 3 + 3) with i by lia. destruct (Z_lt_le_dec i 64).
    + rewrite Z.ones_spec_low by lia. apply andb_true_r.
    + rewrite Z.ones_spec_high by lia. rewrite andb_false_r. symmetry. replace z with (z mod 2 ^ 64) by (apply Z.mod_small; lia). apply Z.mod_pow2_bits_high. lia.
Qed.

Section Loop.
Variables (W : world) (p : prog) (k : nat) (l1 l2 : label).
Hypothesis CA : code_at p k (alloca_loop l1 l2).
Hypothesis ND : NoDup (labels p).

Lemma at1 : nth_error p k = Some (ILabel l1). Proof. now apply code_at_cons in CA as [H _]. Qed.
Lemma atn i x : nth_error (alloca_loop l1 l2) i = Some x -> nth_error p (k + i) = Some x.
Proof. intros N. destruct CA as (p1 & p2 & -> & <-). rewrite nth_error_app2 by lia. replace (length p1 + i - length p1)%nat with i by lia. rewrite nth_error_app1; [exact N|]. apply nth_error_Some. congruence. Qed.
Lemma one_step i rs ms s' : step W p (St (k + i) rs ms) = Some s' -> forall s2, star W p s' s2 -> star W p (St (k + i) rs ms) s2.
Proof. intros. econstructor; eauto. Qed.

(** [d] bytes left, [i] copied *)
Lemma loop_run d : forall rs ms src dst, regs_ok rs -> rs (T 4) = Z.of_nat d -> rs T2 = src -> rs (T 3) = dst -> 0 <= dst <= src -> src + Z.of_nat d < 2 ^ 64 ->
  exists rs' ms', star W p (St k rs ms) (St (k + length (alloca_loop l1 l2)) rs' ms') /\ regs_ok rs' /\
    (forall x, x <> A 0 -> x <> T 2 -> x <> T 3 -> x <> T 4 -> rs' x = rs x) /\
    (forall i, 0 <= i < Z.of_nat d -> ms' (dst + i) mod 256 = ms (src + i) mod 256) /\ forall a, a < dst \/ dst + Z.of_nat d <= a -> ms' a = ms a.
Proof.
  induction d as [|d IH]; intros rs ms src dst RO R4 R2 R3 DS TOP.
  - exists rs, ms. split; [|split; [exact RO|split; [auto|split; [intros; lia|auto]]]].
    econstructor; [unfold step; cbn [pc]; rewrite at1; reflexivity|]. cbn [rg mm]. replace (S k) with (k + 1)%nat by lia.
    eapply (one_step 1); [unfold step; cbn [pc rg mm]; rewrite (atn 1 _ eq_refl); cbn [Beqz exec_cond]; rewrite R4, (proj1 RO); cbn [Z.eqb]; rewrite (find_label_at p (k + 8) l2 ND (atn 8 _ eq_refl)); reflexivity|].
    eapply (one_step 8); [unfold step; cbn [pc]; rewrite (atn 8 _ eq_refl); reflexivity|]. replace (S (k + 8)) with (k + length (alloca_loop l1 l2))%nat by (cbn [length alloca_loop]; lia). constructor.
  - set (b := wrap (sx (8 * 1) (le_load ms src 1))). set (rs1 := setr rs A0 b).
    assert (EA1: ea rs T2 0 1 = Some src) by (apply ea_ok; [unfold wrap; rewrite Z.add_0_r, R2; apply mod_id; lia|lia]).
    assert (RO1: regs_ok rs1) by (apply regs_ok_upd; [exact RO|apply RvProofs.wrap_rng]).
    assert (O1: forall x, x <> A 0 -> rs1 x = rs x) by (intros x N; unfold rs1; now apply setr_other).
    assert (EA2: ea rs1 (T 3) 0 1 = Some dst) by (apply ea_ok; [unfold wrap; rewrite Z.add_0_r, O1, R3 by discriminate; apply mod_id; lia|lia]).
    set (ms1 := le_store ms dst 1 (rs1 A0)).
    set (rs2 := setr rs1 T2 (wrap (rs1 T2 + 1))). set (rs3 := setr rs2 (T 3) (wrap (rs2 (T 3) + 1))). set (rs4 := setr rs3 (T 4) (wrap (rs3 (T 4) + -1))).
    assert (RO4: regs_ok rs4) by (do 3 (apply regs_ok_upd; [|apply RvProofs.wrap_rng]); exact RO1).
    assert (V2: rs4 T2 = src + 1). { unfold rs4, rs3. rewrite !setr_other by discriminate. unfold rs2. change T2 with (T 2). rewrite setr_same by discriminate. rewrite O1 by discriminate. change (rs (T 2)) with (rs T2). rewrite R2. unfold wrap. apply mod_id. lia. }
    assert (V3: rs4 (T 3) = dst + 1). { unfold rs4. rewrite setr_other by discriminate. unfold rs3. rewrite setr_same by discriminate. unfold rs2. rewrite setr_other by discriminate. rewrite O1, R3 by discriminate. unfold wrap. apply mod_id. lia. }
    assert (V4: rs4 (T 4) = Z.of_nat d). { unfold rs4. rewrite setr_same by discriminate. unfold rs3, rs2. rewrite !setr_other by discriminate. rewrite O1, R4 by discriminate. unfold wrap. rewrite mod_id; lia. }
    assert (O4: forall x, x <> A 0 -> x <> T 2 -> x <> T 3 -> x <> T 4 -> rs4 x = rs x) by (intros x N1 N2 N3 N4; unfold rs4, rs3, rs2; rewrite !setr_other by auto; auto).
    destruct (IH rs4 ms1 (src + 1) (dst + 1) RO4 V4 V2 V3 ltac:(lia) ltac:(lia)) as (rs' & ms' & ST & RO' & O' & C' & M').
    exists rs', ms'. split.
    { econstructor; [unfold step; cbn [pc]; rewrite at1; reflexivity|]. cbn [rg mm]. replace (S k) with (k + 1)%nat by lia.
      eapply (one_step 1); [unfold step; cbn [pc rg mm]; rewrite (atn 1 _ eq_refl); cbn [Beqz exec_cond]; rewrite R4, (proj1 RO); replace (Z.of_nat (S d) =? 0) with false by lia; reflexivity|]. replace (S (k + 1)) with (k + 2)%nat by lia.
      eapply (one_step 2); [unfold step; cbn [pc rg mm]; rewrite (atn 2 _ eq_refl); cbn [exec_straight]; rewrite EA1; reflexivity|]. change (Z.to_nat 1) with 1%nat. fold b. fold rs1. replace (S (k + 2)) with (k + 3)%nat by lia.
      eapply (one_step 3); [unfold step; cbn [pc rg mm]; rewrite (atn 3 _ eq_refl); cbn [exec_straight]; rewrite EA2; reflexivity|]. fold ms1. replace (S (k + 3)) with (k + 4)%nat by lia.
      eapply (one_step 4); [unfold step; cbn [pc rg mm]; rewrite (atn 4 _ eq_refl); cbn [exec_straight]; reflexivity|]. fold rs2. replace (S (k + 4)) with (k + 5)%nat by lia.
      eapply (one_step 5); [unfold step; cbn [pc rg mm]; rewrite (atn 5 _ eq_refl); cbn [exec_straight]; reflexivity|]. fold rs3. replace (S (k + 5)) with (k + 6)%nat by lia.
      eapply (one_step 6); [unfold step; cbn [pc rg mm]; rewrite (atn 6 _ eq_refl); cbn [exec_straight]; reflexivity|]. fold rs4. replace (S (k + 6)) with (k + 7)%nat by lia.
      eapply (one_step 7); [unfold step; cbn [pc rg mm]; rewrite (atn 7 _ eq_refl); rewrite (find_label_at p k l1 ND at1); reflexivity|]. exact ST. }
    split; [exact RO'|]. split; [intros x N1 N2 N3 N4; rewrite O' by auto; auto|].
    assert (M1: forall a, ms1 a = if a =? dst then b mod 256 else ms a). { intros a. unfold ms1. rewrite le_store_one. unfold rs1. change A0 with (A 0). rewrite setr_same by discriminate. reflexivity. }
    assert (BB: b mod 256 = ms src mod 256) by (unfold b; cbn [le_load]; apply byte_back).
    split.
    + intros i I. destruct (Z.eq_dec i 0) as [->|NZ].
      * rewrite !Z.add_0_r. rewrite M' by lia. rewrite M1, Z.eqb_refl, BB. apply Zmod_mod.
      * replace (dst + i) with (dst + 1 + (i - 1)) by lia. rewrite C' by lia. rewrite M1. replace (src + 1 + (i - 1) =? dst) with false by lia. f_equal. f_equal. lia.
    + intros a Ha. rewrite M' by lia. rewrite M1. replace (a =? dst) with false by lia. reflexivity.
Qed.
End Loop.

Lemma wrap_small z : 0 <= z < 2 ^ 64 -> wrap z = z.
Proof. intros. unfold wrap. now apply mod_id. Qed.
Lemma exec_cons sym i c rs m rs1 m1 r : exec_straight sym i rs m = Some (rs1, m1) -> exec_list sym c rs1 m1 = r -> exec_list sym (i :: c) rs m = r.
Proof. intros H <-. cbn [exec_list]. now rewrite H. Qed.
Lemma round8_bounds n : n <= round8 n <= n + 7.
Proof. unfold round8. pose proof (Z.mul_div_le (n + 7) 8 ltac:(lia)). pose proof (Z.mul_succ_div_gt (n + 7) 8 ltac:(lia)). lia. Qed.

Definition alloca_pre (off : Z) : list instr :=
  [Mv T0 A0; IAddi T0 T0 7; IAndi T0 T0 (-8); Mv T2 Sp; IOp SUB Sp Sp T0; Mv (T 3) Sp; ILi (T 5) off; IOp ADD (T 5) (T 5) Fp;
   ILoad false 8 T1 0 (T 5); IOp SUB (T 4) T1 T2].

Lemma pre_run sym off fp n bottom sp rs ms : regs_ok rs -> rs Fp = fp -> rs (A 0) = n -> rs Sp = sp -> 0 <= fp + off -> fp + off + 8 <= 2 ^ 64 -> le_load ms (fp + off) 8 = bottom ->
  0 <= sp - round8 n -> sp <= bottom -> bottom <= fp + off ->
  exists rs', exec_list sym (alloca_pre off) rs ms = Some (rs', ms) /\ regs_ok rs' /\ rs' T0 = round8 n /\ rs' T2 = sp /\ rs' Sp = sp - round8 n /\
    rs' (T 3) = sp - round8 n /\ rs' (T 5) = fp + off /\ rs' T1 = bottom /\ rs' (T 4) = bottom - sp /\ rs' Fp = fp /\ rs' Ra = rs Ra.
Proof.
  intros RO RF RN RS S0 S1 SB R0 R1 R2. pose proof (proj2 RO) as RB. pose proof (RB Fp) as BF. pose proof (RB Sp) as BS. pose proof (RB (A 0)) as BN. rewrite RF in BF. rewrite RS in BS. rewrite RN in BN.
  pose proof (round8_bounds n) as RD. clear RB.
  assert (N7: n + 7 < 2 ^ 64). { destruct (Z_lt_le_dec (n + 7) (2 ^ 64)); auto. exfalso. assert (2 ^ 64 / 8 * 8 <= round8 n) by (unfold round8; apply Z.mul_le_mono_nonneg_r; [lia|]; apply Z.div_le_mono; lia). change (2 ^ 64 / 8 * 8) with (2 ^ 64) in H. lia. }
  assert (BO: wrap off = off mod 2 ^ 64) by reflexivity.
  assert (WO: wrap (wrap off + fp) = fp + off) by (unfold wrap; rewrite Zplus_mod_idemp_l; rewrite mod_id; lia).
  set (r := round8 n) in *.
  set (r1 := setr rs T0 (wrap (rs A0 + 0))). assert (V1: r1 T0 = n) by (unfold r1; change A0 with (A 0); rewrite RN, Z.add_0_r, (wrap_small n) by lia; now apply setr_same).
  set (r2 := setr r1 T0 (wrap (r1 T0 + 7))). assert (V2: r2 T0 = n + 7) by (unfold r2; rewrite V1, wrap_small by lia; now apply setr_same).
  set (r3 := setr r2 T0 (Z.land (r2 T0) (wrap (-8)))). assert (V3: r3 T0 = r) by (unfold r3; rewrite V2, land_m8 by lia; now apply setr_same).
  assert (O3: forall x, x <> T 0 -> r3 x = rs x) by (intros x N; unfold r3, r2, r1; rewrite !setr_other by exact N; reflexivity).
  set (r4 := setr r3 T2 (wrap (r3 Sp + 0))). assert (V4: r4 T2 = sp) by (unfold r4; rewrite O3, RS, Z.add_0_r, wrap_small by (discriminate || lia); now apply setr_same).
  set (r5 := setr r4 Sp (exec_op SUB (r4 Sp) (r4 T0))). assert (V5: r5 Sp = sp - r). { unfold r5. rewrite setr_same by discriminate. cbn [exec_op]. unfold r4. rewrite !setr_other by discriminate. rewrite V3, O3, RS by discriminate. apply wrap_small. lia. }
  set (r6 := setr r5 (T 3) (wrap (r5 Sp + 0))). assert (V6: r6 (T 3) = sp - r) by (unfold r6; rewrite V5, Z.add_0_r, wrap_small by lia; now apply setr_same).
  set (r7 := setr r6 (T 5) (wrap off)).
  set (r8 := setr r7 (T 5) (exec_op ADD (r7 (T 5)) (r7 Fp))).
  assert (V8: r8 (T 5) = fp + off). { unfold r8. rewrite setr_same by discriminate. cbn [exec_op]. unfold r7. rewrite setr_same by discriminate. rewrite setr_other by discriminate. unfold r6, r5, r4. rewrite !setr_other by discriminate. rewrite O3, RF by discriminate. exact WO. }
  assert (E8: ea r8 (T 5) 0 8 = Some (fp + off)) by (apply ea_ok; [rewrite V8, Z.add_0_r; apply wrap_small; lia|lia]).
  set (r9 := setr r8 T1 (wrap (sx (8 * 8) (le_load ms (fp + off) (Z.to_nat 8))))).
  assert (V9: r9 T1 = bottom). { unfold r9. change (Z.to_nat 8) with 8%nat. rewrite SB. change T1 with (T 1). rewrite setr_same by discriminate. unfold wrap. change (8 * 8) with 64. rewrite mod_sx by lia. apply mod_id. lia. }
  set (r10 := setr r9 (T 4) (exec_op SUB (r9 T1) (r9 T2))).
  assert (V10: r10 (T 4) = bottom - sp). { unfold r10. rewrite setr_same by discriminate. cbn [exec_op]. rewrite V9. unfold r9, r8, r7, r6, r5. rewrite !setr_other by discriminate. rewrite V4. apply wrap_small. lia. }
  exists r10. split.
  { unfold alloca_pre.
    eapply exec_cons; [reflexivity|]. fold r1. eapply exec_cons; [reflexivity|]. fold r2. eapply exec_cons; [reflexivity|]. fold r3. eapply exec_cons; [reflexivity|]. fold r4.
    eapply exec_cons; [reflexivity|]. fold r5. eapply exec_cons; [reflexivity|]. fold r6. eapply exec_cons; [reflexivity|]. fold r7. eapply exec_cons; [reflexivity|]. fold r8.
    eapply exec_cons; [cbn [exec_straight]; rewrite E8; reflexivity|]. fold r9. eapply exec_cons; [reflexivity|]. fold r10. reflexivity. }
  assert (G: forall x, x <> T 0 -> x <> T 1 -> x <> T 2 -> x <> T 3 -> x <> T 4 -> x <> T 5 -> x <> Sp -> r10 x = rs x) by (intros x X0 X1 X2 X3 X4 X5 X6; unfold r10, r9, r8, r7, r6, r5, r4; rewrite !setr_other by assumption; auto).
  split.
  { split; [rewrite G by discriminate; apply RO|]. intros x. 
    assert (D: x = T 0 \/ x = T 1 \/ x = T 2 \/ x = T 3 \/ x = T 4 \/ x = T 5 \/ x = Sp \/ (x <> T 0 /\ x <> T 1 /\ x <> T 2 /\ x <> T 3 /\ x <> T 4 /\ x <> T 5 /\ x <> Sp)).
    { destruct x as [| | | |i|i|i]; try (right; right; right; right; right; right; right; repeat split; discriminate); try tauto.
      do 6 (destruct i as [|i]; [tauto|]). right; right; right; right; right; right; right; repeat split; discriminate. }
    destruct D as [-> |[-> |[-> |[-> |[-> |[-> |[-> |(X0 & X1 & X2 & X3 & X4 & X5 & X6)]]]]]]].
    - assert (Q: r10 (T 0) = r) by (unfold r10, r9, r8, r7, r6, r5, r4; rewrite !setr_other by discriminate; auto). rewrite Q. clear - R0 R1 R2 S0 S1 BS BF BN RD. lia.
    - assert (Q: r10 (T 1) = bottom) by (unfold r10; rewrite !setr_other by discriminate; auto). rewrite Q. clear - R0 R1 R2 S0 S1 BS BF BN RD. lia.
    - assert (Q: r10 (T 2) = sp) by (unfold r10, r9, r8, r7, r6, r5; rewrite !setr_other by discriminate; auto). rewrite Q. clear - R0 R1 R2 S0 S1 BS BF BN RD. lia.
    - assert (Q: r10 (T 3) = (sp - r)) by (unfold r10, r9, r8, r7; rewrite !setr_other by discriminate; auto). rewrite Q. clear - R0 R1 R2 S0 S1 BS BF BN RD. lia.
    - rewrite V10. lia.
    - assert (Q: r10 (T 5) = (fp + off)) by (unfold r10, r9; rewrite !setr_other by discriminate; auto). rewrite Q. clear - R0 R1 R2 S0 S1 BS BF BN RD. lia.
    - assert (Q: r10 Sp = (sp - r)) by (unfold r10, r9, r8, r7, r6; rewrite !setr_other by discriminate; auto). rewrite Q. clear - R0 R1 R2 S0 S1 BS BF BN RD. lia.
    - rewrite G by auto. apply RO. }
  split; [unfold r10, r9, r8, r7, r6, r5, r4; rewrite !setr_other by discriminate; auto|].
  split; [unfold r10, r9, r8, r7, r6, r5; rewrite !setr_other by discriminate; auto|].
  split; [unfold r10, r9, r8, r7, r6; rewrite !setr_other by discriminate; auto|].
  split; [unfold r10, r9, r8, r7; rewrite !setr_other by discriminate; auto|].
  split; [unfold r10, r9; rewrite !setr_other by discriminate; auto|].
  split; [unfold r10; rewrite !setr_other by discriminate; auto|].
  split; [auto|]. split; rewrite G by discriminate; auto.
Qed.

Lemma alloca_run W p k off l1 l2 fp n bottom rs ms : code_at p k (alloca_code off l1 l2) -> NoDup (labels p) -> alloca_ready fp off n bottom (St k rs ms) ->
  exists s', star W p (St k rs ms) s' /\ pc s' = (k + length (alloca_code off l1 l2))%nat /\ alloca_done fp off n bottom (St k rs ms) s'.
Proof.
  intros CA ND [RO RF RN (S0 & S1 & SB) (R0 & R1 & R2)]. cbn [rg mm] in *.
  destruct (pre_run (w_sym W) off fp n bottom (rs Sp) rs ms RO RF RN eq_refl S0 S1 SB R0 R1 R2) as (rs1 & X1 & RO1 & T0v & T2v & Spv & T3v & T5v & T1v & T4v & Fpv & Rav).
  change (alloca_code off l1 l2) with (alloca_pre off ++ alloca_loop l1 l2 ++ [IOp SUB A0 T1 T0; IStore 8 A0 0 (T 5)]) in *.
  apply code_at_app in CA as [C1 CA]. apply code_at_app in CA as [C2 C3]. 
  pose proof (proj2 RO Sp) as BS. pose proof (proj2 RO Fp) as BF. pose proof (round8_bounds n) as RD. pose proof (proj2 RO (A 0)) as BN. rewrite RN in BN. rewrite RF in BF. remember (rs Sp) as sp eqn:ESp.
  destruct (loop_run W p (k + length (alloca_pre off)) l1 l2 C2 ND (Z.to_nat (bottom - sp)) rs1 ms sp (sp - round8 n) RO1) as (rs2 & ms2 & X2 & RO2 & O2 & CP & MO); try lia.
  rewrite Z2Nat.id in CP, MO by lia.
  set (rs3 := setr rs2 A0 (exec_op SUB (rs2 T1) (rs2 T0))).
  assert (V: rs3 (A 0) = bottom - round8 n). { unfold rs3. change A0 with (A 0). rewrite setr_same by discriminate. cbn [exec_op]. rewrite !O2 by discriminate. change (T 0) with T0. change (T 1) with T1. rewrite T0v, T1v. apply wrap_small. lia. }
  assert (V5: rs3 (T 5) = fp + off) by (unfold rs3; rewrite setr_other by discriminate; rewrite O2 by discriminate; exact T5v).
  set (ms3 := le_store ms2 (fp + off) 8 (rs3 A0)).
  exists (St (k + length (alloca_pre off) + length (alloca_loop l1 l2) + 2) rs3 ms3). split; [|split].
  - eapply star_trans; [eapply straight; eauto|]. eapply star_trans; [exact X2|].
    apply (straight W p (k + length (alloca_pre off) + length (alloca_loop l1 l2)) [IOp SUB A0 T1 T0; IStore 8 A0 0 (T 5)] rs2 ms2 rs3 ms3); [exact C3|].
    eapply exec_cons; [reflexivity|]. fold rs3. eapply exec_cons; [cbn [exec_straight]; rewrite (ea_ok rs3 (T 5) 0 8 (fp + off)); [reflexivity| |lia]|reflexivity].
    rewrite V5, Z.add_0_r. apply wrap_small. lia.
  - cbn [pc]. rewrite !app_length. cbn [length]. lia.
  - assert (Sp3: rs3 Sp = sp - round8 n) by (unfold rs3; rewrite setr_other by discriminate; rewrite O2 by discriminate; exact Spv).
    assert (MR: forall a, a < fp + off \/ fp + off + 8 <= a -> ms3 a = ms2 a) by (intros a Ha; unfold ms3; now apply le_store_out).
    constructor; cbn [rg mm]; rewrite ?Sp3, <- ?ESp.
    + split; [apply regs_ok_upd; [exact RO2|apply RvProofs.wrap_rng]|]. unfold rs3. rewrite !setr_other by discriminate. rewrite !O2 by discriminate. auto.
    + rewrite V. split; [lia|]. split; [reflexivity|]. intros D. apply Z.divide_sub_r; [exact D|]. unfold round8. apply Z.divide_factor_r.
    + rewrite V. split; [reflexivity|lia].
    + intros i Hi. rewrite MR by lia. apply CP. exact Hi.
    + unfold ms3. change 8%nat with (Z.to_nat 8) at 1. rewrite le_load_store by lia. change A0 with (A 0). rewrite V. apply mod_id. lia.
    + intros a Ha. rewrite MR by lia. apply MO. lia.
Qed.
