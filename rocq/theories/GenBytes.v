(** The byte by byte copy of a structure and the clearing of a variable. *)
From Verif Require Import Base TypeModel IntArith NodeModel NodeProofs ValSpec NodeSpec RvSpec GenModel GenSpec RvProofs GenArith GenBits GenRun.
From Coq Require Import ZifyBool ZifyNat.
Local Notation length := List.length.

Lemma le_store_one ms a v x : le_store ms a 1 v x = if x =? a then v mod 256 else ms x.
Proof.
  unfold le_store. destruct (Z.eqb_spec x a) as [->|N].
  - replace ((a <=? a) && (a <? a + 1)) with true by lia. now rewrite Z.sub_diag, Z.pow_0_r, Z.div_1_r.
  - now replace ((a <=? x) && (x <? a + 1)) with false by lia.
Qed.
Lemma byte_back z : wrap (sx (8 * 1) (z mod 256 + 256 * 0)) mod 256 = z mod 256.
Proof.
  change (8 * 1) with 8. unfold wrap. change 256 with (2 ^ 8) at 3. rewrite mod_mod_le by lia. rewrite mod_sx by lia.
  rewrite Z.mul_0_r, Z.add_0_r. apply Zmod_mod.
Qed.

Section Bytes.
Variable sym : bytes -> Z.
Lemma copy_byte_run i src dst rs ms : regs_ok rs -> rs (A 0) = src -> rs (A 1) = dst -> 0 <= i -> 0 <= src -> 0 <= dst ->
  src + i + 1 <= 2 ^ 64 -> dst + i + 1 <= 2 ^ 64 ->
  exists rs' ms', exec_list sym (copy_byte i) rs ms = Some (rs', ms') /\ regs_ok rs' /\
    (forall x, x <> T 0 -> x <> T 1 -> rs' x = rs x) /\ forall a, ms' a = if a =? dst + i then ms (src + i) mod 256 else ms a.
Proof.
  intros RO RA RB I S D BS BD. assert (WS : wrap (src + i) = src + i) by (apply mod_id; lia).
  assert (WD : wrap (dst + i) = dst + i) by (apply mod_id; lia). assert (WI : wrap i = i) by (apply mod_id; lia).
  unfold copy_byte. destruct (beyond i).
  - set (z := wrap (sx (8 * 1) (le_load ms (src + i) (Z.to_nat 1)))).
    set (rs1 := setr rs T0 i). set (rs2 := setr rs1 T0 (src + i)). set (rs3 := setr rs2 T1 z). set (rs4 := setr rs3 T0 i). set (rs5 := setr rs4 T0 (dst + i)).
    exists rs5, (le_store ms (dst + i) 1 z). split.
    + cbn [exec_list exec_straight]. rewrite WI. fold rs1. cbn [exec_op].
      replace (rs1 A0) with src by (rewrite <- RA; reflexivity). replace (rs1 T0) with i by reflexivity. rewrite WS. fold rs2.
      rewrite (ea_ok rs2 T0 0 1 (src + i)); [|replace (rs2 T0) with (src + i) by reflexivity; now rewrite Z.add_0_r|lia]. cbv zeta. fold z. fold rs3.
      fold rs4. replace (rs4 A1) with dst by (rewrite <- RB; reflexivity). replace (rs4 T0) with i by reflexivity. rewrite WD. fold rs5.
      rewrite (ea_ok rs5 T0 0 1 (dst + i)); [|replace (rs5 T0) with (dst + i) by reflexivity; now rewrite Z.add_0_r|lia]. reflexivity.
    + split; [repeat apply regs_ok_upd; auto; try lia; apply RvProofs.wrap_rng|]. split.
      * intros x N0 N1. unfold rs5, rs4, rs3, rs2, rs1. rewrite !setr_other; auto.
      * intros a. rewrite le_store_one. unfold z. change (Z.to_nat 1) with 1%nat. cbn [le_load]. now rewrite byte_back.
  - set (z := wrap (sx (8 * 1) (le_load ms (src + i) (Z.to_nat 1)))). set (rs1 := setr rs T0 z).
    exists rs1, (le_store ms (dst + i) 1 z). split.
    + cbn [exec_list exec_straight]. rewrite (ea_ok rs A0 i 1 (src + i)); [|change (rs A0) with (rs (A 0)); now rewrite RA|lia]. cbv zeta. fold z. fold rs1.
      rewrite (ea_ok rs1 A1 i 1 (dst + i)); [|replace (rs1 A1) with dst by (rewrite <- RB; reflexivity); auto|lia]. reflexivity.
    + split; [apply regs_ok_upd; auto; apply RvProofs.wrap_rng|]. split.
      * intros x N0 N1. unfold rs1. rewrite setr_other; auto.
      * intros a. rewrite le_store_one. unfold z. change (Z.to_nat 1) with 1%nat. cbn [le_load]. now rewrite byte_back.
Qed.
Lemma copy_run src dst n k : forall rs ms, regs_ok rs -> rs (A 0) = src -> rs (A 1) = dst -> 0 <= src -> 0 <= dst -> Z.of_nat k <= n ->
  src + n <= 2 ^ 64 -> dst + n <= 2 ^ 64 -> (dst = src \/ dst + n <= src \/ src + n <= dst) ->
  exists rs' ms', exec_list sym (flat_map copy_byte (map Z.of_nat (seq 0 k))) rs ms = Some (rs', ms') /\ regs_ok rs' /\
    (forall x, x <> T 0 -> x <> T 1 -> rs' x = rs x) /\ forall a, ms' a = copy_bytes ms src dst (Z.of_nat k) a.
Proof.
  induction k as [|k IH]; intros rs ms RO RA RB S0 D K BS BD DJ.
  - exists rs, ms. split; [reflexivity|]. split; auto. split; auto. intros a. unfold copy_bytes. now replace ((dst <=? a) && (a <? dst + Z.of_nat 0)) with false by lia.
  - rewrite seq_S, map_app, flat_map_app, exec_list_app. cbn [map flat_map Nat.add]. rewrite app_nil_r.
    destruct (IH rs ms RO RA RB S0 D ltac:(lia) BS BD DJ) as (rs1 & ms1 & X1 & RO1 & K1 & M1). rewrite X1.
    destruct (copy_byte_run (Z.of_nat k) src dst rs1 ms1 RO1 ltac:(rewrite K1; auto; discriminate) ltac:(rewrite K1; auto; discriminate) ltac:(lia) S0 D ltac:(lia) ltac:(lia))
      as (rs2 & ms2 & X2 & RO2 & K2 & M2).
    exists rs2, ms2. split; auto. split; auto. split; [intros; rewrite K2, K1; auto|]. intros a. rewrite M2. unfold copy_bytes.
    destruct (Z.eqb_spec a (dst + Z.of_nat k)) as [->|N].
    + replace ((dst <=? dst + Z.of_nat k) && (dst + Z.of_nat k <? dst + Z.of_nat (S k))) with true by lia.
      rewrite M1. unfold copy_bytes. replace ((dst <=? src + Z.of_nat k) && (src + Z.of_nat k <? dst + Z.of_nat k)) with false by lia.
      do 2 f_equal. lia.
    + rewrite M1. unfold copy_bytes.
      replace ((dst <=? a) && (a <? dst + Z.of_nat (S k))) with ((dst <=? a) && (a <? dst + Z.of_nat k)) by lia. reflexivity.
Qed.

Lemma zero_byte_run fp off a0 rs ms : regs_ok rs -> rs Fp = fp -> wrap (fp + off) = a0 -> a0 + 1 <= 2 ^ 64 ->
  exists rs', exec_list sym (zero_byte off) rs ms = Some (rs', le_store ms a0 1 0) /\ regs_ok rs' /\ (forall x, x <> T 0 -> rs' x = rs x).
Proof.
  intros RO RF WA B. pose proof (proj1 RO) as Z0. unfold zero_byte. destruct (beyond off).
  - set (rs1 := setr rs T0 (wrap off)). set (rs2 := setr rs1 T0 (wrap (rs Fp + wrap off))). exists rs2. split.
    + cbn [exec_list exec_straight]. fold rs1. cbn [exec_op]. replace (rs1 Fp) with (rs Fp) by reflexivity. replace (rs1 T0) with (wrap off) by reflexivity.
      fold rs2. assert (WW : wrap (rs Fp + wrap off) = a0).
      { rewrite <- WA, RF. unfold wrap. rewrite Zplus_mod_idemp_r. reflexivity. }
      rewrite (ea_ok rs2 T0 0 1 a0); auto.
      * replace (rs2 Zero) with 0 by (rewrite <- Z0; reflexivity). reflexivity.
      * replace (rs2 T0) with a0 by (rewrite <- WW; reflexivity). rewrite Z.add_0_r. apply mod_id. rewrite <- WW. apply RvProofs.wrap_rng.
    + split; [repeat apply regs_ok_upd; auto; apply RvProofs.wrap_rng|]. intros x N. unfold rs2, rs1. now rewrite !setr_other.
  - exists rs. split; [|split; auto]. cbn [exec_list exec_straight]. rewrite (ea_ok rs Fp off 1 a0); [|now rewrite RF|lia]. now rewrite Z0.
Qed.
Lemma zero_run fp off a0 n k : forall rs ms, regs_ok rs -> rs Fp = fp -> wrap (fp + off) = a0 -> Z.of_nat k <= n -> a0 + n <= 2 ^ 64 ->
  exists rs' ms', exec_list sym (flat_map (fun i => zero_byte (off + i)) (map Z.of_nat (seq 0 k))) rs ms = Some (rs', ms') /\ regs_ok rs' /\
    (forall x, x <> T 0 -> rs' x = rs x) /\ forall a, ms' a = le_store ms a0 (Z.of_nat k) 0 a.
Proof.
  induction k as [|k IH]; intros rs ms RO RF WA K B.
  - exists rs, ms. split; [reflexivity|]. split; auto. split; auto. intros a. unfold le_store. now replace ((a0 <=? a) && (a <? a0 + Z.of_nat 0)) with false by lia.
  - rewrite seq_S, map_app, flat_map_app, exec_list_app. cbn [map flat_map Nat.add]. rewrite app_nil_r.
    destruct (IH rs ms RO RF WA ltac:(lia) B) as (rs1 & ms1 & X1 & RO1 & K1 & M1). rewrite X1.
    assert (BA : 0 <= a0) by (rewrite <- WA; apply RvProofs.wrap_rng).
    assert (WK : wrap (fp + (off + Z.of_nat k)) = a0 + Z.of_nat k).
    { replace (fp + (off + Z.of_nat k)) with (fp + off + Z.of_nat k) by lia. unfold wrap in *. rewrite <- Zplus_mod_idemp_l, WA. apply mod_id. lia. }
    destruct (zero_byte_run fp (off + Z.of_nat k) (a0 + Z.of_nat k) rs1 ms1 RO1 ltac:(rewrite K1; auto; discriminate) WK ltac:(lia)) as (rs2 & X2 & RO2 & K2).
    exists rs2, (le_store ms1 (a0 + Z.of_nat k) 1 0). split; auto. split; auto. split; [intros; rewrite K2, K1; auto|]. intros a. rewrite le_store_one.
    assert (ZZ : forall m j, le_store m a0 j 0 a = if (a0 <=? a) && (a <? a0 + j) then 0 else m a).
    { intros m j. unfold le_store. destruct ((a0 <=? a) && (a <? a0 + j)) eqn:C; auto. }
    rewrite M1, !ZZ. change (0 mod 256) with 0. destruct (Z.eqb_spec a (a0 + Z.of_nat k)).
    + now replace ((a0 <=? a) && (a <? a0 + Z.of_nat (S k))) with true by lia.
    + now replace ((a0 <=? a) && (a <? a0 + Z.of_nat (S k))) with ((a0 <=? a) && (a <? a0 + Z.of_nat k)) by lia.
Qed.
End Bytes.
