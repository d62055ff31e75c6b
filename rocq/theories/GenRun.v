(** Composing fragments of code that compute values. *)
From Verif Require Import Base TypeModel IntArith NodeModel NodeProofs ValSpec NodeSpec FpSpec RvSpec GenModel GenSpec RvProofs GenArith GenBits.
From Coq Require Import ZifyBool ZifyNat.
Local Notation length := List.length.

(** ** Code that only writes argument and temporary registers *)
Definition tmp (r : reg) : bool := match r with A _ | T _ | FA _ => true | _ => false end.
Definition pure_i (i : instr) : bool :=
  match i with
  | ILabel _ => true
  | ILi rd _ | ILa rd _ | IAddi rd _ _ | IXori rd _ _ | IAndi rd _ _ | ISltiu rd _ _ | ISlli rd _ _ | ISrli rd _ _ | ISrai rd _ _ | IOp _ rd _ _ => tmp rd
  | IFLoad _ rd _ _ | IFOp _ _ rd _ _ | IFNeg _ rd _ | IFCmp _ _ rd _ _ | IFFromInt _ _ _ rd _ | IFToInt _ _ _ rd _ | IFConv _ _ rd _ | IFMv _ rd _ => tmp rd
  | ILoad _ n rd _ _ => tmp rd && (0 <=? n) && (n <=? 8)
  | _ => false
  end.
Definition pure (c : list instr) : bool := forallb pure_i c.
Lemma pure_app a b : pure (a ++ b) = pure a && pure b. Proof. apply forallb_app. Qed.
Lemma setr_other rs r v x : x <> r -> setr rs r v x = rs x.
Proof.
  intros N. assert (B : reg_eqb x r = false).
  { destruct x, r; cbn; auto; try congruence; apply Nat.eqb_neq; congruence. }
  destruct r; cbn [setr]; auto; unfold upd; now rewrite B.
Qed.
Lemma setr_same rs r v : r <> Zero -> setr rs r v r = v.
Proof. intros N. destruct r; cbn [setr]; try congruence; unfold upd; cbn; now rewrite ?Nat.eqb_refl. Qed.

Lemma pure_straight sym i rs m rs' m' : (forall s, 0 <= sym s < 2 ^ 64) -> pure_i i = true -> regs_ok rs -> exec_straight sym i rs m = Some (rs', m') ->
  m' = m /\ regs_ok rs' /\ (forall r, tmp r = false -> rs' r = rs r).
Proof.
  intros SY P R X. split; [|split].
  - destruct i; cbn [pure_i exec_straight] in P, X; try discriminate; try (injection X as _ <-; reflexivity).
    + destruct (ea rs rs0 off n); [|discriminate]. injection X as _ <-. reflexivity.
    + destruct (ea rs rs0 off (width f / 8)); [|discriminate]. injection X as _ <-. reflexivity.
  - eapply exec_straight_regs; eauto. intros u n rd off r ->. cbn in P. lia.
  - intros r T. assert (K : exists rd v, tmp rd = true /\ (rs' = setr rs rd v \/ rs' = rs)).
    { destruct i; cbn [pure_i exec_straight] in P, X; try discriminate; try (exists rd; eexists; split; [exact P|]; left; injection X as <- _; reflexivity).
      - exists (A 0), 0. split; auto. right. congruence.
      - destruct (ea rs rs0 off n); [|discriminate]. exists rd. eexists. split; [destruct (tmp rd); auto|]. left. injection X as <- _. reflexivity.
      - destruct (ea rs rs0 off (width f / 8)); [|discriminate]. exists rd. eexists. split; [exact P|]. left. injection X as <- _. reflexivity. }
    destruct K as (rd & v & TR & [->| ->]); auto. apply setr_other. congruence.
Qed.
Lemma pure_exec sym c rs m rs' m' : (forall s, 0 <= sym s < 2 ^ 64) -> pure c = true -> regs_ok rs -> exec_list sym c rs m = Some (rs', m') ->
  m' = m /\ regs_ok rs' /\ (forall r, tmp r = false -> rs' r = rs r).
Proof.
  intros SY. revert rs m; induction c as [|i c IH]; intros rs m P R X; cbn [exec_list] in X.
  - inversion X; subst; auto.
  - cbn in P. apply andb_true_iff in P as [P1 P2]. destruct exec_straight as [[rs1 m1]|] eqn:Q; [|discriminate].
    destruct (pure_straight _ _ _ _ _ _ SY P1 R Q) as (-> & R1 & K1). destruct (IH _ _ P2 R1 X) as (-> & R2 & K2).
    split; auto. split; auto. intros r T. rewrite K2, K1; auto.
Qed.

(** ** The generator monad *)
Lemma seq_inv a b s c s' : seq_ a b s = Some (c, s') -> exists ca s1 cb, a s = Some (ca, s1) /\ b s1 = Some (cb, s') /\ c = ca ++ cb.
Proof.
  unfold seq_. destruct (a s) as [[ca s1]|] eqn:A; [|discriminate]. destruct (b s1) as [[cb s2]|] eqn:B; [|discriminate].
  intros H. inversion H; subst. exists ca, s1, cb. auto.
Qed.
Lemma emit_inv c0 s c s' : emit c0 s = Some (c, s') -> c = c0 /\ s' = s. Proof. unfold emit. intros H; inversion H; auto. Qed.
Lemma dep_inv k s c s' : dep k s = Some (c, s') -> c = [] /\ g_depth s' = g_depth s + k /\ g_cnt s' = g_cnt s. Proof. unfold dep. intros H; inversion H; auto. Qed.
Definition push_code (r : reg) : list instr := [IAddi Sp Sp (-8); IStore 8 r 0 Sp].
Definition pop_code (r : reg) : list instr := [ILoad false 8 r 0 Sp; IAddi Sp Sp 8].
Lemma push_inv r s c s' : push r s = Some (c, s') -> c = push_code r. Proof. unfold push, seq_, emit, dep. intros H; inversion H; auto. Qed.
Lemma pop_inv r s c s' : pop r s = Some (c, s') -> c = pop_code r. Proof. unfold pop, seq_, emit, dep. intros H; inversion H; auto. Qed.

Section Run.
Variables (E : env) (W : world) (goff : nat -> Z) (fp room : Z).
Hypothesis HS : setting E W goff fp.
Notation same_mem := (same_mem E). Notation matches := (matches E fp). Notation free_stack := (free_stack E room).
Notation above_same := (above_same E). Notation computes := (computes E W fp room).

Lemma sym_range s : 0 <= w_sym W s < 2 ^ 64.
Proof. rewrite (set_sym _ _ _ _ HS). apply (set_env _ _ _ _ HS). Qed.

Lemma above_refl s s' : rg s' Sp = rg s Sp -> mm s' = mm s -> above_same s s'.
Proof. intros H1 H2. split; auto. intros. now rewrite H2. Qed.
Lemma above_trans s1 s2 s3 : above_same s1 s2 -> above_same s2 s3 -> above_same s1 s3.
Proof. intros [A1 B1] [A2 B2]. split; [congruence|]. intros a V L. rewrite B2, B1; auto. lia. Qed.
Lemma free_same lo s s' : rg s' Sp = rg s Sp -> free_stack lo s -> free_stack lo s'.
Proof. intros R [P F]. split; auto. rewrite R. auto. Qed.
Lemma run_straight p s c rs m : code_at p (pc s) c -> exec_list (w_sym W) c (rg s) (mm s) = Some (rs, m) -> star W p s (St (pc s + length c) rs m).
Proof. intros C X. destruct s as [k r mm0]. eapply straight; eauto. Qed.

(** A fragment without any effect, and one followed by code for registers only *)
Lemma computes_weaken c q q' n n' m v m' : 0 <= q' <= q -> n <= n' -> computes c q n m v m' -> computes c q' n' m v m'.
Proof.
  intros Q N H p k s lo CA ND PC MT FS SL. destruct (H p k s lo CA ND PC MT FS ltac:(lia)) as (s' & A & B & C & D & F).
  exists s'. repeat (split; auto). eapply rep_le; eauto.
Qed.
Lemma computes_pure c q n m v : 
  (forall s, matches m s -> exists rs', exec_list (w_sym W) c (rg s) (mm s) = Some (rs', mm s) /\ rep q v (rs' (A 0))) ->
  pure c = true -> computes c q n m v m.
Proof.
  intros H P p k s lo CA ND PC MT FS SL. destruct (H s MT) as (rs' & X & R). subst k.
  exists (St (pc s + length c) rs' (mm s)). destruct MT as (RO & FP & SM).
  destruct (pure_exec _ _ _ _ _ _ sym_range P RO X) as (_ & RO' & K).
  split; [now apply run_straight|]. split; auto. split; auto. split; [split; auto; split; cbn; auto; rewrite K; auto|].
  apply above_refl; cbn; auto.
Qed.
Lemma computes_then c1 c2 q q2 n m v v2 m1 : computes c1 q n m v m1 ->
  (forall s, matches m1 s -> rep q v (rg s (A 0)) -> exists rs', exec_list (w_sym W) c2 (rg s) (mm s) = Some (rs', mm s) /\ rep q2 v2 (rs' (A 0))) ->
  pure c2 = true -> computes (c1 ++ c2) q2 n m v2 m1.
Proof.
  intros H H2 P p k s lo CA ND PC MT FS SL. apply code_at_app in CA as [CA1 CA2].
  destruct (H p k s lo CA1 ND PC MT FS SL) as (s1 & ST1 & PC1 & R1 & MT1 & AB1).
  destruct (H2 s1 MT1 R1) as (rs' & X & R). destruct MT1 as (RO & FP & SM).
  destruct (pure_exec _ _ _ _ _ _ sym_range P RO X) as (_ & RO' & K).
  exists (St (pc s1 + length c2) rs' (mm s1)). split.
  - eapply star_trans; [exact ST1|]. apply run_straight; auto. now rewrite PC1.
  - split; [rewrite app_length; cbn; lia|]. split; auto. split; [split; auto; split; cbn; auto; rewrite K; auto|].
    eapply above_trans; [exact AB1|]. apply above_refl; cbn; auto.
Qed.
Lemma computes_seq c1 c2 q1 q2 n1 n2 m v1 m1 v2 m2 : computes c1 q1 n1 m v1 m1 -> computes c2 q2 n2 m1 v2 m2 ->
  computes (c1 ++ c2) q2 (Z.max n1 n2) m v2 m2.
Proof.
  intros H1 H2 p k s lo CA ND PC MT FS SL. apply code_at_app in CA as [CA1 CA2].
  destruct (H1 p k s lo CA1 ND PC MT FS ltac:(lia)) as (s1 & ST1 & PC1 & R1 & MT1 & AB1).
  assert (SP : rg s1 Sp = rg s Sp) by apply AB1.
  destruct (H2 p (k + length c1)%nat s1 lo CA2 ND PC1 MT1 (free_same _ _ _ SP FS) ltac:(lia)) as (s2 & ST2 & PC2 & R2 & MT2 & AB2).
  exists s2. split; [eapply star_trans; eauto|]. split; [rewrite app_length; lia|]. split; auto. split; auto. eapply above_trans; eauto.
Qed.

(** ** The stack *)
Lemma push_run r rs ms lo (Vs : forall a, lo <= a < rs Sp -> e_valid E a = false) : regs_ok rs -> 0 <= lo -> lo + 8 <= rs Sp -> r <> Sp ->
  exists rs' ms', exec_list (w_sym W) (push_code r) rs ms = Some (rs', ms') /\ regs_ok rs' /\ rs' Sp = rs Sp - 8 /\
    (forall x, x <> Sp -> rs' x = rs x) /\ (forall a, a < rs Sp - 8 \/ rs Sp <= a -> ms' a = ms a) /\
    (forall m, same_mem m ms -> same_mem m ms') /\ le_load ms' (rs Sp - 8) 8 = rs r.
Proof.
  intros RO L S NR. pose proof (proj2 RO Sp) as BS. set (rs' := setr rs Sp (wrap (rs Sp + -8))).
  assert (SPv : rs' Sp = rs Sp - 8).
  { unfold rs'. rewrite setr_same by discriminate. unfold wrap. rewrite mod_id; lia. }
  assert (OT : forall x, x <> Sp -> rs' x = rs x) by (intros; unfold rs'; now apply setr_other).
  assert (EA : ea rs' Sp 0 8 = Some (rs Sp - 8)).
  { unfold ea. rewrite SPv, Z.add_0_r. unfold wrap. rewrite mod_id by lia. replace (rs Sp - 8 + 8 <=? 2 ^ 64) with true by lia. reflexivity. }
  exists rs', (le_store ms (rs Sp - 8) 8 (rs r)). split.
  - unfold push_code. cbn [exec_list exec_straight]. fold rs'. rewrite EA, OT by auto. reflexivity.
  - split; [apply regs_ok_upd; auto; apply RvProofs.wrap_rng|]. split; auto. split; auto. split; [intros a Ha; apply le_store_out; lia|].
    split.
    + intros m SM a Va. rewrite le_store_out; [now apply SM|]. destruct (Z_lt_le_dec a (rs Sp - 8)); auto. right.
      destruct (Z_lt_le_dec a (rs Sp)); [|lia]. rewrite Vs in Va; [discriminate|lia].
    + change 8%nat with (Z.to_nat 8). rewrite le_load_store by lia. change (8 * 8) with 64. apply mod_id. apply RO.
Qed.
Lemma pop_run r rs ms : regs_ok rs -> rs Sp + 8 <= 2 ^ 64 -> r <> Sp -> r <> Zero ->
  exists rs', exec_list (w_sym W) (pop_code r) rs ms = Some (rs', ms) /\ regs_ok rs' /\ rs' Sp = wrap (rs Sp + 8) /\
    (forall x, x <> Sp -> x <> r -> rs' x = rs x) /\ rs' r = le_load ms (rs Sp) 8.
Proof.
  intros RO S NS NZ. pose proof (proj2 RO Sp) as BS.
  assert (EA : ea rs Sp 0 8 = Some (rs Sp)).
  { unfold ea. rewrite Z.add_0_r. unfold wrap. rewrite mod_id by lia. replace (rs Sp + 8 <=? 2 ^ 64) with true by lia. reflexivity. }
  pose proof (le_load_range ms (rs Sp) 8) as LR. change (8 * Z.of_nat 8) with 64 in LR.
  assert (LV : wrap (sx (8 * 8) (le_load ms (rs Sp) (Z.to_nat 8))) = le_load ms (rs Sp) 8).
  { change (8 * 8) with 64. change (Z.to_nat 8) with 8%nat. unfold wrap. rewrite mod_sx by lia. apply mod_id. exact LR. }
  set (rs1 := setr rs r (le_load ms (rs Sp) 8)). exists (setr rs1 Sp (wrap (rs1 Sp + 8))).
  assert (S1 : rs1 Sp = rs Sp) by (unfold rs1; now apply setr_other; congruence).
  split.
  - unfold pop_code. cbn [exec_list exec_straight]. rewrite EA, LV. fold rs1. reflexivity.
  - split; [apply regs_ok_upd; [apply regs_ok_upd; auto|apply RvProofs.wrap_rng]|]. split; [rewrite setr_same by discriminate; now rewrite S1|].
    split; [intros x N1 N2; rewrite setr_other by auto; unfold rs1; now rewrite setr_other|].
    rewrite setr_other by auto. unfold rs1. now rewrite setr_same.
Qed.

(** Evaluate, push, evaluate, finish with code that pops *)
Lemma computes_pushed c1 c2 c3 q1 q2 q n1 n2 m x1 m1 x2 m2 v m' :
  computes c1 q1 n1 m x1 m1 -> computes c2 q2 n2 m1 x2 m2 -> 0 <= n2 ->
  (forall rs ms, regs_ok rs -> rs Fp = fp -> same_mem m2 ms -> rep q2 x2 (rs (A 0)) -> rs Sp + 8 < 2 ^ 64 ->
     (forall a, rs Sp <= a < rs Sp + 8 -> e_valid E a = false) -> rep q1 x1 (le_load ms (rs Sp) 8) ->
     exists rs' ms', exec_list (w_sym W) c3 rs ms = Some (rs', ms') /\ rep q v (rs' (A 0)) /\ regs_ok rs' /\ rs' Fp = fp /\ rs' Sp = rs Sp + 8 /\
       same_mem m' ms' /\ (forall a, e_valid E a = false -> rs Sp + 8 <= a -> ms' a = ms a)) ->
  computes (c1 ++ push_code A0 ++ c2 ++ c3) q (Z.max n1 (1 + n2)) m v m'.
Proof.
  intros H1 H2 N2 H3 p k s lo CA ND PC MT FS SL.
  apply code_at_app in CA as [CA1 CA]. apply code_at_app in CA as [CAp CA]. apply code_at_app in CA as [CA2 CA3].
  destruct (H1 p k s lo CA1 ND PC MT FS ltac:(lia)) as (s1 & ST1 & PC1 & R1 & MT1 & AB1).
  assert (SP : rg s1 Sp = rg s Sp) by apply AB1. destruct FS as [L0 FS].
  destruct (push_run A0 (rg s1) (mm s1) lo ltac:(intros a Ha; apply FS; lia) (proj1 MT1) ltac:(lia) ltac:(lia) ltac:(discriminate)) as (rs2 & ms2 & X2 & RO2 & SP2 & OT2 & MO2 & SM2 & LD2).
  pose (s2 := St (pc s1 + 2) rs2 ms2).
  assert (ST2 : star W p s1 s2) by (apply (run_straight p s1 (push_code A0)); auto; now rewrite PC1).
  assert (FS2 : free_stack lo s2) by (split; auto; cbn; intros a Ha; apply FS; lia).
  assert (MT2 : matches m1 s2) by (split; auto; split; cbn; [rewrite OT2 by discriminate; apply MT1|apply SM2, MT1]).
  destruct (H2 p (k + length c1 + 2)%nat s2 lo CA2 ND ltac:(unfold s2; cbn [rg pc mm]; lia) MT2 FS2 ltac:(unfold s2; cbn [rg pc mm]; lia)) as (s3 & ST3 & PC3 & R3 & MT3 & AB3).
  destruct AB3 as [SP3 MO3]. unfold s2 in SP3, MO3; cbn in SP3, MO3. pose proof (proj2 (proj1 MT) Sp) as BS.
  assert (IV : forall a, rg s3 Sp <= a < rg s3 Sp + 8 -> e_valid E a = false) by (intros a Ha; apply FS; lia).
  assert (SL3 : rep q1 x1 (le_load (mm s3) (rg s3 Sp) 8)).
  { replace (le_load (mm s3) (rg s3 Sp) 8) with (rg s1 (A 0)); auto. change (rg s1 (A 0)) with (rg s1 A0). rewrite <- LD2, SP3, SP2. apply le_load_ext. intros i Hi.
    rewrite MO3; auto; [apply FS; lia|lia]. }
  destruct (H3 (rg s3) (mm s3) (proj1 MT3) (proj1 (proj2 MT3)) (proj2 (proj2 MT3)) R3 ltac:(lia) IV SL3) as (rs4 & ms4 & X4 & R4 & RO4 & FP4 & SP4 & SM4 & MO4).
  exists (St (pc s3 + length c3) rs4 ms4). split.
  - eapply star_trans; [exact ST1|]. eapply star_trans; [exact ST2|]. eapply star_trans; [exact ST3|].
    apply run_straight; auto. rewrite PC3. exact CA3.
  - split; [rewrite !app_length; cbn; lia|]. split; auto. split; [split; auto|]. split; [cbn; lia|]. cbn. intros a Va La.
    rewrite MO4 by (auto; lia). rewrite MO3 by (auto; lia). rewrite MO2 by lia. apply AB1; auto.
Qed.

(** ** Reading memory *)
Lemma same_load m ms a n : same_mem m ms -> (forall i, 0 <= i < Z.of_nat n -> e_valid E (a + i) = true) -> le_load ms a n = le_load m a n.
Proof. intros SM V. apply le_load_ext. intros i Hi. now rewrite SM by auto. Qed.
Lemma ea_ok rs r off n a : wrap (rs r + off) = a -> a + n <= 2 ^ 64 -> ea rs r off n = Some a.
Proof. intros H B. unfold ea. rewrite H. replace (a + n <=? 2 ^ 64) with true by lia. reflexivity. Qed.
Lemma load_run t s0 c s' m a v rs ms : load t s0 = Some (c, s') -> loadable t = true -> load_val (e_valid E) t m a = Some v ->
  0 <= a < 2 ^ 64 -> rs (A 0) = a -> same_mem m ms ->
  pure c = true /\ exists rs', exec_list (w_sym W) c rs ms = Some (rs', ms) /\ rep 64 v (rs' (A 0)).
Proof.
  intros LD LO LV Ba RA SM. unfold loadable in LO. destruct (int_repr t) as [p|] eqn:R.
  - assert (C : c = [if access_size t =? 8 then ILoad false 8 A0 0 A0 else ILoad (is_unsigned t) (access_size t) A0 0 A0]).
    { destruct t; try discriminate R; cbn in LD; inversion LD; reflexivity. }
    unfold load_val in LV. replace (is_aggregate t) with false in LV by (destruct t; auto; discriminate R).
    destruct (accessible (e_valid E) a (size_of t)) eqn:AC; [|discriminate]. apply accessible_spec in AC as (A1 & A2 & A3).
    destruct (scalar_access t p R) as [SA SB].
    assert (LL : le_load ms a (Z.to_nat (size_of t)) = le_load m a (Z.to_nat (size_of t))) by (apply same_load; auto; intros; apply A3; lia).
    pose proof (le_load_range m a (Z.to_nat (size_of t))) as LR. replace (Z.of_nat (Z.to_nat (size_of t))) with (size_of t) in LR by lia.
    pose proof (load_reg_ok t v _ LR LV) as RG. unfold load_reg in RG. rewrite SA in *. subst c.
    assert (AD : wrap (rs A0 + 0) = a) by (change (rs A0) with (rs (A 0)); rewrite RA, Z.add_0_r; now apply mod_id).
    destruct (size_of t =? 8) eqn:S8.
    + split; [reflexivity|]. assert (SZ : size_of t = 8) by lia. rewrite SZ in *.
      eexists. cbn [exec_list exec_straight]. rewrite (ea_ok rs A0 0 8 a AD ltac:(lia)), LL. split; [reflexivity|exact RG].
    + split; [cbn; lia|]. eexists. cbn [exec_list exec_straight]. rewrite (ea_ok rs A0 0 (size_of t) a AD ltac:(lia)), LL. split; [reflexivity|exact RG].
  - apply andb_true_iff in LO as [AG _]. unfold load_val in LV. rewrite AG in LV.
    assert (c = []) by (destruct t; try discriminate AG; cbn in LD; inversion LD; reflexivity). subst c. split; auto. exists rs. split; auto.
    assert (v = rs (A 0)) by congruence. subst v. apply rep_refl.
Qed.
End Run.
