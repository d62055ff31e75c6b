(** Composing fragments of code that leave a value in a0 or fa0. *)
From Verif Require Import Base TypeModel IntArith NodeModel NodeProofs ValSpec NodeSpec FpSpec RvSpec GenModel GenSpec RvProofs GenArith GenBits GenRun GenBytes GenProofs GenSim FloatSpec FloatProofs.
From Coq Require Import ZifyBool ZifyNat.
Local Notation length := List.length.

Definition fpush_code (r : reg) : list instr := [IAddi Sp Sp (-8); IFStore B64 r 0 Sp].
Definition fpop_code (r : reg) : list instr := [IFLoad B64 r 0 Sp; IAddi Sp Sp 8].
Lemma fpush_inv r s c s' : fpush r s = Some (c, s') -> c = fpush_code r. Proof. unfold fpush, seq_, emit, dep. intros H; inversion H; auto. Qed.
Lemma fpop_inv r s c s' : fpop r s = Some (c, s') -> c = fpop_code r. Proof. unfold fpop, seq_, emit, dep. intros H; inversion H; auto. Qed.

Section Run.
Variables (E : env) (W : world) (goff : nat -> Z) (fp room : Z).
Hypothesis HS : setting E W goff fp.
Notation same_mem := (same_mem E). Notation matches := (matches E fp). Notation free_stack := (free_stack E room).
Notation above_same := (above_same E). Notation computes := (computes E W fp room). Notation runs := (runs E W fp room).

Lemma computes_runs c q n m v m' : computes c q n m v m' -> runs c n m (fun rs => rep q v (rs (A 0))) m'. Proof. exact (fun H => H). Qed.
Lemma runs_computes c q n m v m' : runs c n m (fun rs => rep q v (rs (A 0))) m' -> computes c q n m v m'. Proof. exact (fun H => H). Qed.
Lemma runs_weaken c n n' m (Q Q' : regs -> Prop) m' : (forall rs, Q rs -> Q' rs) -> n <= n' -> runs c n m Q m' -> runs c n' m Q' m'.
Proof.
  intros I N H p k s lo CA ND PC MT FS SL. destruct (H p k s lo CA ND PC MT FS ltac:(lia)) as (s' & A1 & B & C & D & F). exists s'. repeat (split; auto).
Qed.
Lemma runs_pure c n m (Q : regs -> Prop) :
  (forall s, matches m s -> exists rs', exec_list (w_sym W) c (rg s) (mm s) = Some (rs', mm s) /\ Q rs') -> pure c = true -> runs c n m Q m.
Proof.
  intros H P p k s lo CA ND PC MT FS SL. destruct (H s MT) as (rs' & X & R). subst k.
  exists (St (pc s + length c) rs' (mm s)). destruct MT as (RO & FP & SM).
  destruct (pure_exec _ _ _ _ _ _ (sym_range E W goff fp HS) P RO X) as (_ & RO' & K).
  split; [now apply run_straight|]. split; auto. split; auto. split; [split; auto; split; cbn; auto; rewrite K; auto|]. apply (above_refl E); cbn; auto.
Qed.
Lemma runs_then c1 c2 n m (Q Q2 : regs -> Prop) m1 : runs c1 n m Q m1 ->
  (forall s, matches m1 s -> Q (rg s) -> exists rs', exec_list (w_sym W) c2 (rg s) (mm s) = Some (rs', mm s) /\ Q2 rs') ->
  pure c2 = true -> runs (c1 ++ c2) n m Q2 m1.
Proof.
  intros H H2 P p k s lo CA ND PC MT FS SL. apply code_at_app in CA as [CA1 CA2].
  destruct (H p k s lo CA1 ND PC MT FS SL) as (s1 & ST1 & PC1 & R1 & MT1 & AB1).
  destruct (H2 s1 MT1 R1) as (rs' & X & R). destruct MT1 as (RO & FP & SM).
  destruct (pure_exec _ _ _ _ _ _ (sym_range E W goff fp HS) P RO X) as (_ & RO' & K).
  exists (St (pc s1 + length c2) rs' (mm s1)). split.
  - eapply star_trans; [exact ST1|]. apply run_straight; auto. now rewrite PC1.
  - split; [rewrite app_length; cbn; lia|]. split; auto. split; [split; auto; split; cbn; auto; rewrite K; auto|].
    eapply (above_trans E); [exact AB1|]. apply (above_refl E); cbn; auto.
Qed.
Lemma runs_seq c1 c2 n1 n2 m (Q1 Q2 : regs -> Prop) m1 m2 : runs c1 n1 m Q1 m1 -> runs c2 n2 m1 Q2 m2 -> runs (c1 ++ c2) (Z.max n1 n2) m Q2 m2.
Proof.
  intros H1 H2 p k s lo CA ND PC MT FS SL. apply code_at_app in CA as [CA1 CA2].
  destruct (H1 p k s lo CA1 ND PC MT FS ltac:(lia)) as (s1 & ST1 & PC1 & R1 & MT1 & AB1).
  assert (SP : rg s1 Sp = rg s Sp) by apply AB1.
  destruct (H2 p (k + length c1)%nat s1 lo CA2 ND PC1 MT1 (free_same E room _ _ _ SP FS) ltac:(lia)) as (s2 & ST2 & PC2 & R2 & MT2 & AB2).
  exists s2. split; [eapply star_trans; eauto|]. split; [rewrite app_length; lia|]. split; auto. split; auto. eapply (above_trans E); eauto.
Qed.

(** ** The stack *)
Lemma fpush_same r sym rs ms : exec_list sym (fpush_code r) rs ms = exec_list sym (push_code r) rs ms.
Proof. reflexivity. Qed.
Lemma fpop_run r rs ms : regs_ok rs -> rs Sp + 8 <= 2 ^ 64 -> r <> Sp -> r <> Zero ->
  exists rs', exec_list (w_sym W) (fpop_code r) rs ms = Some (rs', ms) /\ regs_ok rs' /\ rs' Sp = wrap (rs Sp + 8) /\
    (forall x, x <> Sp -> x <> r -> rs' x = rs x) /\ rs' r = le_load ms (rs Sp) 8.
Proof.
  intros RO S NS NZ. pose proof (proj2 RO Sp) as BS.
  assert (EA : ea rs Sp 0 (width B64 / 8) = Some (rs Sp)).
  { unfold ea. rewrite Z.add_0_r. unfold wrap. rewrite mod_id by lia. change (width B64 / 8) with 8. replace (rs Sp + 8 <=? 2 ^ 64) with true by lia. reflexivity. }
  pose proof (le_load_range ms (rs Sp) 8) as LR. change (8 * Z.of_nat 8) with 64 in LR.
  assert (LV : box B64 (le_load ms (rs Sp) (Z.to_nat (width B64 / 8))) = le_load ms (rs Sp) 8).
  { change (Z.to_nat (width B64 / 8)) with 8%nat. cbn [box]. apply mod_id. exact LR. }
  set (rs1 := setr rs r (le_load ms (rs Sp) 8)). exists (setr rs1 Sp (wrap (rs1 Sp + 8))).
  assert (S1 : rs1 Sp = rs Sp) by (unfold rs1; now apply setr_other; congruence).
  split.
  - unfold fpop_code. cbn [exec_list exec_straight]. rewrite EA, LV. fold rs1. reflexivity.
  - split; [apply regs_ok_upd; [apply regs_ok_upd; auto|apply RvProofs.wrap_rng]|]. split; [rewrite setr_same by discriminate; now rewrite S1|].
    split; [intros x N1 N2; rewrite setr_other by auto; unfold rs1; now rewrite setr_other|].
    rewrite setr_other by auto. unfold rs1. now rewrite setr_same.
Qed.
(** Evaluate, push [r], evaluate, finish with code that pops *)
Lemma runs_pushed r pcode c1 c2 c3 n1 n2 m (Q1 Q2 Q : regs -> Prop) m1 m2 m' :
  (forall sym rs ms, exec_list sym pcode rs ms = exec_list sym (push_code r) rs ms) -> length pcode = 2%nat -> r <> Sp ->
  runs c1 n1 m Q1 m1 -> runs c2 n2 m1 Q2 m2 -> 0 <= n2 ->
  (forall rs ms rs0, regs_ok rs -> rs Fp = fp -> same_mem m2 ms -> Q2 rs -> rs Sp + 8 < 2 ^ 64 ->
     (forall a, rs Sp <= a < rs Sp + 8 -> e_valid E a = false) -> Q1 rs0 -> regs_ok rs0 -> le_load ms (rs Sp) 8 = rs0 r ->
     exists rs' ms', exec_list (w_sym W) c3 rs ms = Some (rs', ms') /\ Q rs' /\ regs_ok rs' /\ rs' Fp = fp /\ rs' Sp = rs Sp + 8 /\
       same_mem m' ms' /\ (forall a, e_valid E a = false -> rs Sp + 8 <= a -> ms' a = ms a)) ->
  runs (c1 ++ pcode ++ c2 ++ c3) (Z.max n1 (1 + n2)) m Q m'.
Proof.
  intros PS PL NR H1 H2 N2 H3 p k s lo CA ND PC MT FS SL.
  apply code_at_app in CA as [CA1 CA]. apply code_at_app in CA as [CAp CA]. apply code_at_app in CA as [CA2 CA3].
  destruct (H1 p k s lo CA1 ND PC MT FS ltac:(lia)) as (s1 & ST1 & PC1 & R1 & MT1 & AB1).
  assert (SP : rg s1 Sp = rg s Sp) by apply AB1. destruct FS as [L0 FS].
  destruct (push_run E W r (rg s1) (mm s1) lo ltac:(intros a Ha; apply FS; lia) (proj1 MT1) ltac:(lia) ltac:(lia) NR) as (rs2 & ms2 & X2 & RO2 & SP2 & OT2 & MO2 & SM2 & LD2).
  pose (s2 := St (pc s1 + 2) rs2 ms2). rewrite <- PS in X2.
  assert (ST2 : star W p s1 s2) by (unfold s2; rewrite <- PL; apply run_straight; auto; now rewrite PC1).
  assert (FS2 : free_stack lo s2) by (split; auto; cbn; intros a Ha; apply FS; lia).
  assert (MT2 : matches m1 s2) by (split; auto; split; cbn; [rewrite OT2 by discriminate; apply MT1|apply SM2, MT1]).
  rewrite PL in *.
  destruct (H2 p (k + length c1 + 2)%nat s2 lo CA2 ND ltac:(unfold s2; cbn [rg pc mm]; lia) MT2 FS2 ltac:(unfold s2; cbn [rg pc mm]; lia)) as (s3 & ST3 & PC3 & R3 & MT3 & AB3).
  destruct AB3 as [SP3 MO3]. unfold s2 in SP3, MO3; cbn in SP3, MO3. pose proof (proj2 (proj1 MT) Sp) as BS.
  assert (IV : forall a, rg s3 Sp <= a < rg s3 Sp + 8 -> e_valid E a = false) by (intros a Ha; apply FS; lia).
  assert (SL3 : le_load (mm s3) (rg s3 Sp) 8 = rg s1 r).
  { rewrite <- LD2, SP3, SP2. apply le_load_ext. intros i Hi. rewrite MO3; auto; [apply FS; lia|lia]. }
  destruct (H3 (rg s3) (mm s3) (rg s1) (proj1 MT3) (proj1 (proj2 MT3)) (proj2 (proj2 MT3)) R3 ltac:(lia) IV R1 (proj1 MT1) SL3) as (rs4 & ms4 & X4 & R4 & RO4 & FP4 & SP4 & SM4 & MO4).
  exists (St (pc s3 + length c3) rs4 ms4). split.
  - eapply star_trans; [exact ST1|]. eapply star_trans; [exact ST2|]. eapply star_trans; [exact ST3|].
    apply run_straight; auto. rewrite PC3. exact CA3.
  - split; [rewrite !app_length, PL; cbn; lia|]. split; auto. split; [split; auto|]. split; [cbn; lia|]. cbn. intros a Va La.
    rewrite MO4 by (auto; lia). rewrite MO3 by (auto; lia). rewrite MO2 by lia. apply AB1; auto.
Qed.

(** ** Branches on a0, which has been set to 0 or 1 *)
Definition flag (b : bool) (rs : regs) : Prop := rs (A 0) = b2z (negb b).
Lemma flag_branch p s m b c l k : matches m s -> flag b (rg s) -> nth_error p (pc s) = Some (IBr c A0 Zero l) -> (c = BNE \/ c = BEQ) -> nth_error p k = Some (ILabel l) -> NoDup (labels p) ->
  star W p s (if Bool.eqb b (match c with BNE => false | _ => true end) then St (S k) (rg s) (mm s) else St (S (pc s)) (rg s) (mm s)).
Proof.
  intros (RO & _) FL N2 CC NL ND. pose proof (branch W p s c A0 l k N2 NL ND) as B. change (rg s A0) with (rg s (A 0)) in B. unfold flag in FL. rewrite (proj1 RO), FL in B.
  destruct CC as [-> | ->]; cbn [exec_cond] in B; destruct b; exact B.
Qed.
Lemma runs_cond cc ca cb n1 na nb m b m1 (Q : regs -> Prop) m' le ld : runs cc n1 m (flag b) m1 ->
  (if b then runs ca na m1 Q m' else runs cb nb m1 Q m') ->
  runs (cc ++ [Bnez A0 le] ++ ca ++ [IJ ld; ILabel le] ++ cb ++ [ILabel ld]) (Z.max n1 (Z.max na nb)) m Q m'.
Proof.
  intros HC HX p k s lo CA ND PC MT FS SL.
  apply code_at_app in CA as [CA1 CA]. cbn [app] in CA. apply code_at_cons in CA as [N2 CA].
  apply code_at_app in CA as [CA2 CA]. apply code_at_cons in CA as [N3 CA]. apply code_at_cons in CA as [N4 CA]. apply code_at_app in CA as [CA3 CA]. apply code_at_cons in CA as [N5 _].
  destruct (HC p k s lo CA1 ND PC MT FS ltac:(lia)) as (s1 & ST1 & PC1 & R1 & MT1 & AB1). rewrite <- PC1 in *.
  pose proof (flag_branch p s1 m1 b BNE le _ MT1 R1 N2 ltac:(auto) N4 (proj1 ND)) as ST2.
  assert (AB2 : forall n, above_same s (St n (rg s1) (mm s1))) by (intros n; eapply (above_trans E); [exact AB1|]; apply (above_refl E); auto).
  assert (SPn : rg s1 Sp = rg s Sp) by apply AB1.
  assert (MT2 : forall n, matches m1 (St n (rg s1) (mm s1))) by (intros n; exact MT1).
  rewrite !app_length. cbn [length]. destruct b; cbn [Bool.eqb] in ST2.
  - destruct (HX p _ (St _ (rg s1) (mm s1)) lo CA2 ND eq_refl (MT2 _) (free_same E room lo s (St _ (rg s1) (mm s1)) SPn FS) ltac:(cbn [rg]; lia)) as (s3 & ST3 & PC3 & R3 & MT3 & AB3).
    rewrite <- PC3 in N3. pose proof (jump W p s3 ld _ N3 N5 (proj1 ND)) as ST4.
    eexists. split; [eapply star_trans; [exact ST1|]; eapply star_trans; [exact ST2|]; eapply star_trans; [exact ST3|exact ST4]|].
    split; [cbn [pc]; lia|]. split; [exact R3|]. split; [exact MT3|]. eapply (above_trans E); [apply AB2|exact AB3].
  - destruct (HX p _ (St _ (rg s1) (mm s1)) lo CA3 ND eq_refl (MT2 _) (free_same E room lo s (St _ (rg s1) (mm s1)) SPn FS) ltac:(cbn [rg]; lia)) as (s3 & ST3 & PC3 & R3 & MT3 & AB3).
    eexists. split; [eapply star_trans; [exact ST1|]; eapply star_trans; [exact ST2|]; eapply star_trans; [exact ST3|]; apply star_one; unfold step; rewrite PC3, N5; reflexivity|].
    split; [cbn [pc]; lia|]. split; [exact R3|]. split; [exact MT3|]. eapply (above_trans E); [apply AB2|exact AB3].
Qed.
(** [c] is the branch taken early: with the value [b2z (negb (c = BNE))] *)
Lemma runs_logic cl cr nl nr m x m1 y m2 c lx ld : (c = BNE \/ c = BEQ) -> runs cl nl m (flag x) m1 ->
  (if Bool.eqb x (match c with BNE => false | _ => true end) then y = x /\ m2 = m1 else runs cr nr m1 (flag y) m2) ->
  runs (cl ++ [IBr c A0 Zero lx] ++ cr ++
    [IBr c A0 Zero lx; ILi A0 (match c with BNE => 1 | _ => 0 end); IJ ld; ILabel lx; ILi A0 (match c with BNE => 0 | _ => 1 end); ILabel ld]) (Z.max nl nr) m
    (fun rs => rep 64 (b2z y) (rs (A 0))) m2.
Proof.
  intros CC HC HX p k s lo CA ND PC MT FS SL.
  apply code_at_app in CA as [CA1 CA]. cbn [app] in CA. apply code_at_cons in CA as [N2 CA].
  apply code_at_app in CA as [CA2 CA]. apply code_at_cons in CA as [N4 CA]. apply code_at_cons in CA as [N5 CA].
  apply code_at_cons in CA as [N6 CA]. apply code_at_cons in CA as [N7 CA]. apply code_at_cons in CA as [N8 CA]. apply code_at_cons in CA as [N9 _].
  destruct (HC p k s lo CA1 ND PC MT FS ltac:(lia)) as (s1 & ST1 & PC1 & R1 & MT1 & AB1). rewrite <- PC1 in *.
  pose proof (flag_branch p s1 m1 x c lx _ MT1 R1 N2 CC N7 (proj1 ND)) as ST2.
  assert (AB2 : forall n, above_same s (St n (rg s1) (mm s1))) by (intros n; eapply (above_trans E); [exact AB1|]; apply (above_refl E); auto).
  assert (SPn : rg s1 Sp = rg s Sp) by apply AB1.
  assert (MT2 : forall n, matches m1 (St n (rg s1) (mm s1))) by (intros n; exact MT1).
  set (j := (S (pc s1) + length cr)%nat) in *.
  assert (LX : forall r0 m0, star W p (St (S (S (S (S j)))) r0 m0) (St (S (S (S (S (S (S j)))))) (setr r0 A0 (wrap (match c with BNE => 0 | _ => 1 end))) m0)).
  { intros. eapply star_step; [eapply exec_straight_step; [exact N8|reflexivity]|]. apply star_one. unfold step. cbn [pc]. now rewrite N9. }
  assert (LD : forall r0 m0, star W p (St (S j) r0 m0) (St (S (S (S (S (S (S j)))))) (setr r0 A0 (wrap (match c with BNE => 1 | _ => 0 end))) m0)).
  { intros. eapply star_step; [eapply exec_straight_step; [exact N5|reflexivity]|].
    apply (jump W p (St (S (S j)) (setr r0 A0 _) m0) ld (S (S (S (S (S j)))))); auto. apply ND. }
  rewrite app_length, Nat.add_assoc. rewrite <- PC in PC1. replace (k + length cl)%nat with (pc s1) by lia.
  replace (pc s1 + length ([IBr c A0 Zero lx] ++ cr ++ [IBr c A0 Zero lx; ILi A0 (match c with BNE => 1 | _ => 0 end); IJ ld; ILabel lx; ILi A0 (match c with BNE => 0 | _ => 1 end); ILabel ld]))%nat with (S (S (S (S (S (S j))))))
    by (rewrite !app_length; cbn [length]; unfold j; lia).
  assert (UP : forall r0 m0 mm1 n w, matches mm1 (St n r0 m0) -> matches mm1 (St (S (S (S (S (S (S j)))))) (setr r0 A0 (wrap w)) m0)).
  { intros r0 m0 mm1 n w (A1' & A2' & A3'). split; [apply regs_ok_upd; auto; apply wrap_rng|]. split; auto. }
  destruct (Bool.eqb x (match c with BNE => false | _ => true end)) eqn:TX.
  - destruct HX as [-> ->]. eexists. split; [eapply star_trans; [exact ST1|]; eapply star_trans; [exact ST2|apply LX]|]. split; [reflexivity|].
    split; [|split; [eapply UP, (MT2 0%nat)|exact (AB2 0%nat)]].
    cbn [rg]. change (A 0) with A0. rewrite setr_same by discriminate.
    destruct CC as [-> | ->]; destruct x; try discriminate TX; apply rep_refl.
  - destruct (HX p _ (St _ (rg s1) (mm s1)) lo CA2 ND eq_refl (MT2 _) (free_same E room lo s (St _ (rg s1) (mm s1)) SPn FS) ltac:(cbn [rg]; lia)) as (s3 & ST3 & PC3 & R3 & MT3 & AB3).
    fold j in PC3. rewrite <- PC3 in N4.
    pose proof (flag_branch p s3 m2 y c lx _ MT3 R3 N4 CC N7 (proj1 ND)) as ST4. rewrite PC3 in ST4.
    assert (MT4 : forall n, matches m2 (St n (rg s3) (mm s3))) by (intros n; exact MT3).
    assert (AB4 : forall n, above_same s (St n (rg s3) (mm s3))).
    { intros n; eapply (above_trans E); [apply (AB2 0%nat)|]. eapply (above_trans E); [exact AB3|]. apply (above_refl E); auto. }
    destruct (Bool.eqb y (match c with BNE => false | _ => true end)) eqn:TY.
    + eexists. split; [eapply star_trans; [exact ST1|]; eapply star_trans; [exact ST2|]; eapply star_trans; [exact ST3|]; eapply star_trans; [exact ST4|apply LX]|].
      split; [reflexivity|]. split; [|split; [eapply UP, (MT4 0%nat)|exact (AB4 0%nat)]].
      cbn [rg]. change (A 0) with A0. rewrite setr_same by discriminate. destruct CC as [-> | ->]; destruct y; try discriminate TY; apply rep_refl.
    + eexists. split; [eapply star_trans; [exact ST1|]; eapply star_trans; [exact ST2|]; eapply star_trans; [exact ST3|]; eapply star_trans; [exact ST4|apply LD]|].
      split; [reflexivity|]. split; [|split; [eapply UP, (MT4 0%nat)|exact (AB4 0%nat)]].
      cbn [rg]. change (A 0) with A0. rewrite setr_same by discriminate. destruct CC as [-> | ->]; destruct y; try discriminate TY; apply rep_refl.
Qed.
End Run.
