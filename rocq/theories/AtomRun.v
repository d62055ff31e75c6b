(** The harts together. *)
From Verif Require Import Base TypeModel IntArith NodeModel ValSpec NodeSpec NodeProofs RvSpec ElabSpec GenModel GenSpec RvProofs GenBits GenRun AtomSpec AtomModel AtomProofs.
From Coq Require Import ZifyBool ZifyNat.
Local Notation length := List.length.
Local Arguments Z.mul : simpl never. Local Arguments Z.add : simpl never. Local Arguments Z.sub : simpl never.
Local Arguments Z.pow : simpl never. Local Arguments Z.modulo : simpl never. Local Arguments Z.div : simpl never.

Lemma afind_at p k l : NoDup (alabels p) -> nth_error p k = Some (AI (ILabel l)) -> afind p l = Some k.
Proof.
  revert k; induction p as [|i p IH]; intros k ND N; [destruct k; discriminate|].
  destruct k as [|k]; cbn in N.
  - assert (i = AI (ILabel l)) by congruence. subst. cbn. unfold label_eqb. now rewrite beq_refl.
  - assert (I : In l (alabels p)).
    { apply nth_error_In in N. unfold alabels. apply in_flat_map. exists (AI (ILabel l)). cbn. auto. }
    destruct i as [i| |]; [destruct i|..]; cbn [afind]; cbn [alabels flat_map app] in ND; try (rewrite (IH k ND N); reflexivity).
    inversion ND; subst. unfold label_eqb. destruct (beq l l0) eqn:B.
    + apply beq_eq in B. subst. contradiction.
    + rewrite (IH k); auto.
Qed.

(** A step that only touches the hart's own memory *)
Definition quiet (P : Z -> Prop) (w : option (Z * Z)) (m m' : mem) : Prop :=
  (forall b n, w = Some (b, n) -> forall x, b <= x < b + n -> P x) /\ (forall a, ~ P a -> m' a = m a).
Definition placed (p : list ainstr) (k : nat) (blk : list instr) : Prop := forall j i, nth_error blk j = Some i -> nth_error p (k + j) = Some (AI i).
Definition At (P : Z -> Prop) (k : nat) (blk : list instr) (Q : regs -> mem -> Prop) (h : hart) (m : mem) : Prop :=
  exists j, (j <= length blk)%nat /\ h_pc h = (k + j)%nat /\ wp P (skipn j blk) Q (h_rg h) m.

Lemma quiet_refl P m : quiet P None m m. Proof. split; auto. discriminate. Qed.
Lemma straight_hstep P p luck h m i rs1 m1 h' m' w : nth_error p (h_pc h) = Some (AI i) -> acc P i (h_rg h) -> exec_straight sym0 i (h_rg h) m = Some (rs1, m1) ->
  hstep p luck h m = Some (h', m', w) -> h' = Hart (S (h_pc h)) rs1 (h_res h) /\ m' = m1 /\ quiet P w m m'.
Proof.
  intros N AC X H. unfold hstep in H. rewrite N in H. change (fun _ => 0) with sym0 in H.
  assert (PU : (forall n r2 off r1, i <> IStore n r2 off r1) -> m1 = m).
  { intros NS. destruct i; cbn [exec_straight] in X; try discriminate; try contradiction; try (injection X as _ <-; reflexivity).
    - destruct (ea (h_rg h) rs off n); [inversion X; reflexivity|discriminate].
    - exfalso. eapply NS. reflexivity. }
  destruct i; try discriminate X; try contradiction; rewrite X in H;
    try (inversion H; subst; split; [reflexivity|]; split; [reflexivity|]; rewrite PU by discriminate; apply quiet_refl).
  destruct AC as (NN & a & EA & IN). rewrite EA in H. inversion H; subst. split; [reflexivity|]. split; [reflexivity|]. split.
  - intros b k E. inversion E; subst. exact IN.
  - intros x NP. cbn [exec_straight] in X. rewrite EA in X. assert (m' = le_store m a n (rs1 r2)) as -> by (inversion X; reflexivity). apply le_store_out.
    assert (~ (a <= x < a + n)) by (intros HH; apply NP, IN; auto). lia.
Qed.
Lemma skipn_nth {A} (l : list A) j : (j < length l)%nat -> exists x, nth_error l j = Some x /\ skipn j l = x :: skipn (S j) l.
Proof.
  revert j; induction l as [|a l IH]; intros j H; cbn in H; [lia|]. destruct j as [|j]; [exists a; auto|].
  destruct (IH j ltac:(lia)) as (x & N & S1). exists x. split; [exact N|exact S1].
Qed.
Lemma At_step P p k blk Q h m : placed p k blk -> At P k blk Q h m ->
  (h_pc h = (k + length blk)%nat /\ Q (h_rg h) m) \/
  ((h_pc h < k + length blk)%nat /\ forall luck h' m' w, hstep p luck h m = Some (h', m', w) -> At P k blk Q h' m' /\ h_res h' = h_res h /\ quiet P w m m').
Proof.
  intros PL (j & LE & PC & W). destruct (Nat.eq_dec j (length blk)) as [->|NE].
  - left. split; [exact PC|]. rewrite skipn_all in W. exact W.
  - right. split; [lia|]. intros luck h' m' w H. destruct (skipn_nth blk j ltac:(lia)) as (i & N & SK). rewrite SK in W. cbn [wp] in W.
    destruct W as (AC & rs1 & m1 & X & W). apply PL in N. rewrite <- PC in N.
    destruct (straight_hstep P p luck h m i rs1 m1 h' m' w N AC X H) as (-> & -> & QU). split; [|split; [reflexivity|exact QU]].
    exists (S j). cbn [h_pc h_rg]. split; [lia|]. split; [lia|exact W].
Qed.
Lemma At_agree P k blk Q h m h' m' : stable P Q -> agree P m m' -> h_pc h' = h_pc h -> h_rg h' = h_rg h -> At P k blk Q h m -> At P k blk Q h' m'.
Proof. intros ST AG E1 E2 (j & LE & PC & W). exists j. split; [exact LE|]. split; [congruence|]. rewrite E2. eapply wp_agree; eauto. Qed.
Lemma At_start P k blk (Q : regs -> mem -> Prop) h m : h_pc h = k -> wp P blk Q (h_rg h) m -> At P k blk Q h m.
Proof. intros PC W. exists 0%nat. cbn [skipn]. split; [lia|]. split; [lia|exact W]. Qed.
Lemma At_end P k blk (Q : regs -> mem -> Prop) h m : h_pc h = (k + length blk)%nat -> Q (h_rg h) m -> At P k blk Q h m.
Proof. intros PC W. exists (length blk). rewrite skipn_all. split; [lia|]. split; [exact PC|exact W]. Qed.

Section Phases.
Variables (P : Z -> Prop) (X : Z) (goff : nat -> Z) (k : nat) (tb : ty) (y fp sp : Z) (o : bop) (n c u : Z) (pre : list ainstr).
Notation OA := (fp + goff k). Notation OV := (fp + goff (S k)). Notation OO := (fp + goff (S (S k))). Notation ON := (fp + goff (S (S (S k)))).
Hypothesis OP : is_assign_op o = true.
Hypothesis TB : is_arith tb = true.
Hypothesis AP : ForallOrdPairs apart (areas fp sp goff k tb).
Hypothesis MI : Forall (fun r => 0 <= fst r /\ fst r + snd r <= 2 ^ 64 /\ forall a, fst r <= a < fst r + snd r -> P a) (areas fp sp goff k tb).
Hypothesis XO : word_ok X = true.
Hypothesis X0 : 0 <= X.
Hypothesis SPR : sp < 2 ^ 64.
Hypothesis NR : forall i, (i < 4)%nat -> -2048 <= goff (k + i)%nat <= 2047.
Hypothesis XP : forall a, X <= a < X + 4 -> ~ P a.
Notation b1 := (blk1 (goff k) (goff (S (S k)))).
Notation b2 := (blk2 (goff k) (goff (S k)) (goff (S (S k))) (goff (S (S (S k)))) tb o n u).
Definition p : list ainstr := pre ++ rmw_code (goff k) (goff (S k)) (goff (S (S k))) (goff (S (S (S k)))) tb o n c u.
Hypothesis ND : NoDup (alabels p).
Notation Base := (Base X goff k tb y fp sp). Notation Q1 := (Q1 X goff k tb y fp sp). Notation Q3 := (Q3 X goff k tb y fp sp o). Notation Good := (Good tb y o).
Definition L0 := length pre.
Definition k2 := (L0 + 6)%nat.
Definition kt := (L0 + 9 + length b2)%nat.
Definition fin := (kt + 17)%nat.
Definition blkR : list instr := [ILabel (cas_return c); IOp SUBW T2 T4 T2; Seqz A0 T2].
Definition blkU : list instr := [IStore 4 T4 0 T1; ILabel (cas_end c); Seqz A0 A0; Seqz A0 A0].
Definition blkC : list instr := [ILabel (cas_end c); Seqz A0 A0; Seqz A0 A0].
Definition blkF : list instr := [ILabel (name (LUniq u)); loc (goff (S (S (S k)))); lw].

Lemma len_p : length p = fin.
Proof using Type. clear XP XO TB OP NR X0 SPR AP MI ND; clear P X. unfold p, rmw_code, fin, kt, L0. rewrite !app_length, !map_length, !app_length. cbn [length blk1 blk0 push_code pop_code cas_tail post app]. rewrite ?app_length. cbn [length]. lia. Qed.

(** where things are *)
Lemma nth_pre j : nth_error p (L0 + j) = nth_error (rmw_code (goff k) (goff (S k)) (goff (S (S k))) (goff (S (S (S k)))) tb o n c u) j.
Proof. unfold p. rewrite nth_error_app2 by (unfold L0; lia). f_equal. unfold L0. lia. Qed.
Lemma nth_tail j : (j < 17)%nat -> nth_error p (kt + j) = nth_error (cas_tail c ++ map AI (post (goff (S (S (S k)))) n u)) j.
Proof.
  intros H. unfold kt. replace (L0 + 9 + length b2 + j)%nat with (L0 + (9 + length b2 + j))%nat by lia. rewrite nth_pre. unfold rmw_code.
  rewrite nth_error_app2; rewrite map_length, app_length; cbn [length blk1 push_code app blk0 pop_code]; [|lia]. f_equal. lia.
Qed.
Lemma placed_1 : placed p L0 b1.
Proof.
  intros j i N. rewrite nth_pre. unfold rmw_code. rewrite map_app, <- app_assoc.
  assert (B : (j < length b1)%nat) by (apply nth_error_Some; congruence). rewrite nth_error_app1 by (rewrite map_length; exact B). rewrite nth_error_map, N. reflexivity.
Qed.
Lemma nth_shared : nth_error p (L0 + 5) = Some (AI lw).
Proof. rewrite nth_pre. reflexivity. Qed.
Lemma placed_2 : placed p k2 (blk0 ++ b2).
Proof.
  intros j i N. unfold k2. replace (L0 + 6 + j)%nat with (L0 + (6 + j))%nat by lia. rewrite nth_pre. unfold rmw_code.
  assert (B : (j < length (blk0 ++ b2))%nat) by (apply nth_error_Some; congruence).
  rewrite nth_error_app1 by (rewrite map_length, app_length; cbn [length]; cbn [blk1 push_code app length]; lia).
  rewrite nth_error_map. cbn [blk1 push_code app]. cbn [nth_error Nat.add]. rewrite N. reflexivity.
Qed.
Lemma placed_R : placed p (kt + 5) blkR.
Proof. intros j i N. assert (B : (j < 3)%nat) by (change 3%nat with (length blkR); apply nth_error_Some; congruence). replace (kt + 5 + j)%nat with (kt + (5 + j))%nat by lia. rewrite nth_tail by lia. destruct j as [|[|[|j]]]; [..|lia]; cbn in *; congruence. Qed.
Lemma placed_U : placed p (kt + 9) blkU.
Proof. intros j i N. assert (B : (j < 4)%nat) by (change 4%nat with (length blkU); apply nth_error_Some; congruence). replace (kt + 9 + j)%nat with (kt + (9 + j))%nat by lia. rewrite nth_tail by lia. destruct j as [|[|[|[|j]]]]; [..|lia]; cbn in *; congruence. Qed.
Lemma placed_C : placed p (kt + 10) blkC.
Proof. intros j i N. assert (B : (j < 3)%nat) by (change 3%nat with (length blkC); apply nth_error_Some; congruence). replace (kt + 10 + j)%nat with (kt + (10 + j))%nat by lia. rewrite nth_tail by lia. destruct j as [|[|[|j]]]; [..|lia]; cbn in *; congruence. Qed.
Lemma placed_F : placed p (kt + 14) blkF.
Proof. intros j i N. assert (B : (j < 3)%nat) by (change 3%nat with (length blkF); apply nth_error_Some; congruence). replace (kt + 14 + j)%nat with (kt + (14 + j))%nat by lia. rewrite nth_tail by lia. destruct j as [|[|[|j]]]; [..|lia]; cbn in *; congruence. Qed.
Lemma find_retry : afind p (cas_retry c) = Some (kt + 0)%nat. Proof. apply afind_at; auto. rewrite nth_tail by lia. reflexivity. Qed.
Lemma find_return : afind p (cas_return c) = Some (kt + 5)%nat. Proof. apply afind_at; auto. rewrite nth_tail by lia. reflexivity. Qed.
Lemma find_end : afind p (cas_end c) = Some (kt + 10)%nat. Proof. apply afind_at; auto. rewrite nth_tail by lia. reflexivity. Qed.
Lemma find_begin : afind p (name (LBegin n)) = Some (k2 + 3)%nat.
Proof. apply afind_at; auto. apply placed_2. reflexivity. Qed.

Definition QU w (rs : regs) m := Base rs m /\ - 2 ^ 31 <= w < 2 ^ 31 /\ rs T4 = wrap w /\ rs T1 = OO /\ rs T2 <> 0 /\ rs A0 = 0.
Definition QV w (rs : regs) m := Base rs m /\ is_int w m OO /\ rs A0 = 0.
Definition QC z (rs : regs) m := Base rs m /\ is_int z m ON /\ rs T2 = 0 /\ rs A0 = 1.
Definition QD z (rs : regs) m := Base rs m /\ is_int z m ON /\ rs A0 = 1.
Definition QF z (rs : regs) m := Base rs m /\ is_int z m ON /\ rs A0 = wrap z.

Ltac bs := try solve [eapply Base_stable; eauto | eapply int_agree_o; eauto | eapply int_agree_n; eauto].
Lemma QU_stable w : stable P (QU w). Proof. intros rs m m' AG (B & H). split; [bs|exact H]. Qed.
Lemma QV_stable w : stable P (QV w). Proof. intros rs m m' AG (B & I1 & H). split; [bs|]. split; [bs|exact H]. Qed.
Lemma QC_stable z : stable P (QC z). Proof. intros rs m m' AG (B & I1 & H). split; [bs|]. split; [bs|exact H]. Qed.
Lemma QD_stable z : stable P (QD z). Proof. intros rs m m' AG (B & I1 & H). split; [bs|]. split; [bs|exact H]. Qed.
Lemma QF_stable z : stable P (QF z). Proof. intros rs m m' AG (B & I1 & H). split; [bs|]. split; [bs|exact H]. Qed.

(** What is known of the hart at every point; the last argument: the value it has stored *)
Inductive phase (h : hart) (m : mem) : option Z -> Prop :=
  | ph_1 : At P L0 b1 Q1 h m -> phase h m None
  | ph_2 v : At P k2 (blk0 ++ b2) (Q3 v) h m -> phase h m None
  | ph_lr v : h_pc h = (kt + 1)%nat -> Q3 v (h_rg h) m -> phase h m None
  | ph_bne v w : h_pc h = (kt + 2)%nat -> Q3 v (h_rg h) m -> - 2 ^ 31 <= w < 2 ^ 31 -> h_rg h T4 = wrap w -> (h_res h = Some X -> at_X X m = w) -> phase h m None
  | ph_sc v : h_pc h = (kt + 3)%nat -> Q3 v (h_rg h) m -> h_rg h T4 = wrap v -> (h_res h = Some X -> at_X X m = v) -> phase h m None
  | ph_fail v : h_pc h = (kt + 4)%nat -> Q3 v (h_rg h) m -> h_rg h A0 = 1 -> phase h m None
  | ph_ok z : h_pc h = (kt + 4)%nat -> Base (h_rg h) m -> is_int z m ON -> h_rg h T4 = h_rg h T2 -> h_rg h A0 = 0 -> phase h m (Some z)
  | ph_u w : At P (kt + 5) blkR (QU w) h m -> phase h m None
  | ph_u9 w : At P (kt + 9) blkU (QV w) h m -> phase h m None
  | ph_c z : At P (kt + 5) blkR (QC z) h m -> phase h m (Some z)
  | ph_c10 z : At P (kt + 10) blkC (QD z) h m -> phase h m (Some z)
  | ph_c14 z : At P (kt + 14) blkF (QF z) h m -> phase h m (Some z).

(** The steps of others *)
Lemma phase_agree h m st h' m' : phase h m st -> agree P m m' -> h_pc h' = h_pc h -> h_rg h' = h_rg h ->
  (h_res h' = Some X -> h_res h = Some X /\ at_X X m' = at_X X m) -> phase h' m' st.
Proof.
  intros PH AG E1 E2 RS.
  assert (S3 : forall v, stable P (Q3 v)) by (intros v; apply Q3_stable; auto).
  destruct PH.
  - eapply ph_1, At_agree; eauto. eapply Q1_stable; eauto.
  - eapply ph_2, At_agree; eauto.
  - eapply ph_lr; [congruence|]. rewrite E2. eapply S3; eauto.
  - eapply ph_bne; [congruence|rewrite E2; eapply S3; eauto|eassumption|congruence|]. intros R. destruct (RS R) as [R1 ->]. auto.
  - eapply ph_sc; [congruence|rewrite E2; eapply S3; eauto|congruence|]. intros R. destruct (RS R) as [R1 ->]. auto.
  - eapply ph_fail; [congruence|rewrite E2; eapply S3; eauto|congruence].
  - eapply ph_ok; [congruence|rewrite E2; bs|bs|congruence|congruence].
  - eapply ph_u, At_agree; eauto. apply QU_stable.
  - eapply ph_u9, At_agree; eauto. apply QV_stable.
  - eapply ph_c, At_agree; eauto. apply QC_stable.
  - eapply ph_c10, At_agree; eauto. apply QD_stable.
  - eapply ph_c14, At_agree; eauto. apply QF_stable.
Qed.

(** The blocks of the tail *)
Lemma sub_zero w v : - 2 ^ 31 <= w < 2 ^ 31 -> - 2 ^ 31 <= v < 2 ^ 31 -> wrap (sgn32 (wrap w - wrap v)) = 0 <-> w = v.
Proof.
  intros W V. assert (E : sgn32 (wrap w - wrap v) = sx 32 (w - v)).
  { unfold sgn32. apply sx_cong; [|lia]. unfold eqm, wrap. rewrite Zminus_mod, <- !(Znumtheory.Zmod_div_mod (2 ^ 32) (2 ^ 64)), <- Zminus_mod by (try lia; exists (2 ^ 32); reflexivity). reflexivity. }
  rewrite E. split; [|intros ->; rewrite Z.sub_diag; reflexivity]. intros H.
  assert (R := sx_range 32 (w - v) ltac:(lia)). change (2 ^ (32 - 1)) with 2147483648 in R. assert (Z0 : sx 32 (w - v) = 0).
  { unfold wrap in H. change (2 ^ 64) with 18446744073709551616 in H. apply Z.mod_divide in H; [|lia]. destruct H as [q H]. lia. }
  assert (EQ := sx_eqm 32 (w - v) ltac:(lia)). rewrite Z0 in EQ. unfold eqm in EQ. rewrite Z.mod_0_l in EQ by lia. symmetry in EQ. apply Z.mod_divide in EQ; [|lia]. destruct EQ as [q EQ]. lia.
Qed.
Lemma base_set rs m r v : Base rs m -> 0 <= v < 2 ^ 64 -> r <> Fp -> r <> Sp -> Base (setr rs r v) m.
Proof.
  intros (RO & FP & SP & EN) V N1 N2. split; [apply regs_ok_upd; auto|]. rewrite !setr_other by congruence. auto.
Qed.
Lemma wp_seqz r c0 (Q : regs -> mem -> Prop) rs m : 0 <= rs r -> wp P c0 Q (setr rs A0 (if rs r =? 0 then 1 else 0)) m -> wp P (Seqz A0 r :: c0) Q rs m.
Proof.
  intros R H. eapply wp_reg; [exact I|reflexivity|]. change (wrap 1) with 1. replace (b2z (rs r <? 1)) with (if rs r =? 0 then 1 else 0); [exact H|].
  unfold b2z. destruct (Z.eqb_spec (rs r) 0), (Z.ltb_spec (rs r) 1); lia.
Qed.
Lemma blkR_u v w rs m : Base rs m -> - 2 ^ 31 <= w < 2 ^ 31 -> - 2 ^ 31 <= v < 2 ^ 31 -> rs T4 = wrap w -> rs T2 = wrap v -> v <> w -> rs T1 = OO -> wp P blkR (QU w) rs m.
Proof.
  intros B W V E4 E2 NE E1. unfold blkR.
  assert (NZ : wrap (sgn32 (rs T4 - rs T2)) <> 0) by (rewrite E4, E2; intros HZ; apply (proj1 (sub_zero w v W V)) in HZ; congruence).
  assert (R := wrap_rng (sgn32 (rs T4 - rs T2))).
  eapply wp_reg; [exact I|reflexivity|]. eapply wp_reg; [exact I|reflexivity|]. cbn [exec_op].
  apply wp_seqz; rewrite setr_same by discriminate; [lia|]. destruct (Z.eqb_spec (wrap (sgn32 (rs T4 - rs T2))) 0); [contradiction|]. cbn [wp].
  split; [repeat apply base_set; auto; try discriminate; lia|]. split; [exact W|]. split; [exact E4|]. split; [exact E1|]. split; [exact NZ|reflexivity].
Qed.
Lemma blkR_c z rs m : Base rs m -> is_int z m ON -> rs T4 = rs T2 -> wp P blkR (QC z) rs m.
Proof.
  intros B IZ E. unfold blkR.
  eapply wp_reg; [exact I|reflexivity|]. eapply wp_reg; [exact I|reflexivity|]. cbn [exec_op]. rewrite E, Z.sub_diag. change (wrap (sgn32 0)) with 0.
  apply wp_seqz; rewrite setr_same by discriminate; [lia|]. cbn [wp Z.eqb].
  split; [repeat apply base_set; auto; try discriminate; cbn; lia|]. split; [exact IZ|]. split; reflexivity.
Qed.
Lemma blkU_wp w rs m : QU w rs m -> wp P blkU (QV w) rs m.
Proof.
  intros (B & W & E4 & E1 & N2 & A). assert (F : facts P goff k tb fp sp) by (eapply facts_ok; eauto). destruct F. unfold blkU.
  eapply wp_store; [lia|cbn; rewrite E1, Z.add_0_r; apply wrap_id; lia|lia|intros; apply fo; lia|].
  eapply wp_reg; [exact I|reflexivity|]. apply wp_seqz; rewrite A; [lia|]. cbn [Z.eqb]. apply wp_seqz; rewrite setr_same by discriminate; [lia|]. cbn [wp Z.eqb].
  split; [|split; [|reflexivity]].
  - repeat apply base_set; try discriminate; try (cbn; lia). destruct B as (RO & FP & SP & EN). split; [exact RO|]. split; [exact FP|]. split; [exact SP|]. eapply env_keep; eauto; lia.
  - split; [exact W|]. change 4%nat with (Z.to_nat 4). rewrite le_load_store by lia. rewrite E4. unfold wrap. change (8 * 4) with 32. clear. rewrite <- Znumtheory.Zmod_div_mod; try lia. exists (2 ^ 32). reflexivity.
Qed.
Lemma blkC_wp z rs m : QC z rs m -> wp P blkC (QD z) rs m.
Proof.
  intros (B & IZ & E2 & A). unfold blkC.
  eapply wp_reg; [exact I|reflexivity|]. apply wp_seqz; rewrite A; [lia|]. cbn [Z.eqb]. apply wp_seqz; rewrite setr_same by discriminate; [lia|]. cbn [wp Z.eqb].
  split; [repeat apply base_set; auto; try discriminate; cbn; lia|]. split; [exact IZ|reflexivity].
Qed.
Lemma blkF_wp z rs m : QD z rs m -> wp P blkF (QF z) rs m.
Proof.
  intros (B & IZ & A). assert (F : facts P goff k tb fp sp) by (eapply facts_ok; eauto). destruct F. unfold blkF. destruct B as (RO & FP & SP & EN).
  eapply wp_reg; [exact I|reflexivity|]. apply wp_loc with (fp := fp); [exact FP|lia|]. eapply wp_load; [lia|cbn; rewrite Z.add_0_r; apply wrap_id; lia|lia|intros; apply fn; lia|].
  change (Z.to_nat 4) with 4%nat. change (8 * 4) with 32. destruct IZ as [R1 R2]. rewrite R2, sx_mod by lia. rewrite sx_id by (try lia; change (2 ^ (32 - 1)) with (2 ^ 31); exact R1).
  cbn [wp]. split; [|split; [split; [exact R1|exact R2]|reflexivity]].
  repeat apply base_set; try discriminate; try apply wrap_rng; try (cbn; lia). split; auto.
Qed.

Lemma at_X_int m : - 2 ^ 31 <= at_X X m < 2 ^ 31.
Proof. apply (sx_range 32). lia. Qed.
Lemma blk02_wp v rs m : Q1 rs m -> - 2 ^ 31 <= v < 2 ^ 31 -> wp P (blk0 ++ b2) (Q3 v) (setr rs A0 (wrap v)) m.
Proof.
  intros Q V. apply wp_app. eapply wp_mono; [|eapply blk0_wp; eauto]. intros rs1 m1 [B I1]. eapply blk2_wp; eauto.
Qed.
Lemma b2_again v rs m : Base rs m -> is_int v m OO -> wp P (skipn 3 (blk0 ++ b2)) (Q3 v) rs m.
Proof. intros B I1. change (skipn 3 (blk0 ++ b2)) with b2. eapply blk2_wp; eauto. Qed.
Lemma Q3_int v rs m : Q3 v rs m -> - 2 ^ 31 <= v < 2 ^ 31. Proof. intros (_ & (R & _) & _). exact R. Qed.
Lemma wrap_int v w : - 2 ^ 31 <= w < 2 ^ 31 -> - 2 ^ 31 <= v < 2 ^ 31 -> wrap v = wrap w -> v = w.
Proof. intros W V E. apply (proj1 (sub_zero v w V W)). rewrite E, Z.sub_diag. reflexivity. Qed.

Lemma some3 {A B C} (a a' : A) (b b' : B) (c0 c' : C) : Some (a, b, c0) = Some (a', b', c') -> a' = a /\ b' = b /\ c' = c0.
Proof. intros E. injection E. auto. Qed.
Lemma phase_step luck h m st h' m' w : phase h m st -> hstep p luck h m = Some (h', m', w) ->
  (quiet P w m m' /\ phase h' m' st) \/
  (exists z, st = None /\ w = Some (X, 4) /\ Good (at_X X m) z /\ at_X X m' = z /\ (forall a, ~ (X <= a < X + 4) -> m' a = m a) /\ phase h' m' (Some z)).
Proof.
  intros PH ST.
  assert (S3 : forall v, stable P (Q3 v)) by (intros v; apply Q3_stable; auto).
  destruct PH as [A|v A|v PC Q|v w0 PC Q W T RS|v PC Q T RS|v PC Q A|z PC B IZ T A|w0 A|w0 A|z A|z A|z A].
  - destruct (At_step _ _ _ _ _ _ _ placed_1 A) as [[PC Q]|[_ N]].
    + change (length b1) with 5%nat in PC. unfold hstep in ST. rewrite PC, nth_shared in ST. cbn [lw] in ST. cbn [exec_straight] in ST.
      assert (AX : h_rg h A0 = X) by apply Q. unfold lw in ST. cbn [exec_straight] in ST. unfold ea in ST. rewrite AX, Z.add_0_r, wrap_id in ST by (unfold word_ok in XO; lia).
      destruct (X + 4 <=? 2 ^ 64); [|discriminate]. apply some3 in ST; destruct ST as (-> & -> & ->). left. split; [apply quiet_refl|].
      apply ph_2 with (v := at_X X m). apply At_start; cbn [h_pc h_rg]; [unfold k2; lia|]. apply blk02_wp; [exact Q|apply at_X_int].
    + destruct (N _ _ _ _ ST) as (A' & _ & QU). left. split; [exact QU|]. now apply ph_1.
  - destruct (At_step _ _ _ _ _ _ _ placed_2 A) as [[PC Q]|[_ N]].
    + assert (PC1 : h_pc h = (kt + 0)%nat) by (rewrite PC, app_length; cbn [length blk0 pop_code app]; unfold k2, kt; lia).
      unfold hstep in ST. rewrite PC1, nth_tail in ST by lia. cbn in ST. apply some3 in ST; destruct ST as (-> & -> & ->). left. split; [apply quiet_refl|].
      apply ph_lr with (v := v); [cbn; lia|exact Q].
    + destruct (N _ _ _ _ ST) as (A' & _ & QU). left. split; [exact QU|]. now apply ph_2 with (v := v).
  - unfold hstep in ST. rewrite PC, nth_tail in ST by lia. cbn [nth_error cas_tail app] in ST.
    assert (T0X : h_rg h T0 = X) by apply Q. rewrite T0X, XO in ST. apply some3 in ST; destruct ST as (-> & -> & ->). left. split; [apply quiet_refl|].
    apply ph_bne with (v := v) (w := at_X X m); cbn [h_pc h_rg h_res]; [lia| |apply at_X_int|reflexivity|reflexivity].
    destruct Q as (B & I1 & Z1 & H). split; [apply base_set; auto; try discriminate; apply wrap_rng|]. split; [exact I1|]. split; [exact Z1|exact H].
  - unfold hstep in ST. rewrite PC, nth_tail in ST by lia. cbn [nth_error cas_tail app exec_cond] in ST.
    assert (T2V : h_rg h T2 = wrap v) by apply Q. rewrite T, T2V in ST. destruct (Z.eqb_spec (wrap w0) (wrap v)) as [E|NE]; cbn [negb] in ST.
    + apply some3 in ST; destruct ST as (-> & -> & ->). left. split; [apply quiet_refl|]. apply wrap_int in E; [|eapply Q3_int; eauto|exact W]. subst w0.
      apply ph_sc with (v := v); cbn [h_pc h_rg h_res]; auto; lia.
    + rewrite find_return in ST. apply some3 in ST; destruct ST as (-> & -> & ->). left. split; [apply quiet_refl|].
      apply ph_u with (w := w0). apply At_start; [reflexivity|]. cbn [h_rg]. apply blkR_u with (v := v); try apply Q; auto. congruence.
  - unfold hstep in ST. rewrite PC, nth_tail in ST by lia. cbn [nth_error cas_tail app] in ST.
    assert (T0X : h_rg h T0 = X) by apply Q. rewrite T0X, XO in ST. cbn [negb] in ST.
    destruct (luck && match h_res h with Some b => X =? b | None => false end) eqn:OK.
    + destruct (h_res h) as [b|] eqn:HR; [|destruct luck; discriminate]. assert (b = X) by (destruct luck; cbn in OK; lia). subst b.
      specialize (RS eq_refl). destruct Q as (B & I1 & (z & IZ & G & T3Z) & _ & T1O & T2V). assert (IV : - 2 ^ 31 <= v < 2 ^ 31) by apply I1.
      rewrite T3Z in ST. apply some3 in ST; destruct ST as (-> & -> & ->). right. exists z. rewrite RS. split; [reflexivity|]. split; [reflexivity|]. split; [exact G|].
      assert (AO : forall a, ~ (X <= a < X + 4) -> le_store m X 4 (wrap z) a = m a) by (intros a Pa; apply le_store_out; lia).
      assert (AG : forall a, P a -> le_store m X 4 (wrap z) a = m a) by (intros a Pa; apply AO; intros HH; eapply XP; eauto).
      split; [|split; [exact AO|]].
      * unfold at_X. change 4%nat with (Z.to_nat 4). rewrite le_load_store by lia. change (8 * 4) with 32. rewrite sx_mod by lia.
        unfold wrap. rewrite sx_mod by lia. apply sx_id; [lia|]. apply IZ.
      * apply ph_ok; cbn [h_pc h_rg]; [lia| | |change (h_rg h T4 = h_rg h T2); congruence|reflexivity].
        -- eapply Base_stable; eauto. apply base_set; auto; try discriminate; lia.
        -- eapply int_agree_n; eauto.
    + apply some3 in ST; destruct ST as (-> & -> & ->). left. split; [apply quiet_refl|]. apply ph_fail with (v := v); cbn [h_pc h_rg]; [lia| |reflexivity].
      destruct Q as (B & I1 & Z1 & H). split; [apply base_set; auto; try discriminate; lia|]. split; [exact I1|]. split; [exact Z1|exact H].
  - unfold hstep in ST. rewrite PC, nth_tail in ST by lia. cbn [nth_error cas_tail app exec_cond Bnez] in ST.
    assert (Z0 : h_rg h Zero = 0) by apply Q. rewrite A, Z0 in ST. cbn [Z.eqb negb] in ST. rewrite find_retry in ST. apply some3 in ST; destruct ST as (-> & -> & ->). left. split; [apply quiet_refl|].
    apply ph_2 with (v := v). apply At_end; cbn [h_pc h_rg]; [|exact Q]. rewrite app_length. cbn [length blk0 pop_code app]. unfold k2, kt. lia.
  - unfold hstep in ST. rewrite PC, nth_tail in ST by lia. cbn [nth_error cas_tail app exec_cond Bnez] in ST.
    assert (Z0 : h_rg h Zero = 0) by apply B. rewrite A, Z0 in ST. cbn [Z.eqb negb] in ST. apply some3 in ST; destruct ST as (-> & -> & ->). left. split; [apply quiet_refl|].
    apply ph_c. apply At_start; cbn [h_pc h_rg]; [lia|]. apply blkR_c; auto.
  - destruct (At_step _ _ _ _ _ _ _ placed_R A) as [[PC Q]|[_ N]].
    + change (length blkR) with 3%nat in PC. replace (kt + 5 + 3)%nat with (kt + 8)%nat in PC by lia.
      unfold hstep in ST. rewrite PC, nth_tail in ST by lia. cbn [nth_error cas_tail app exec_cond Beqz] in ST.
      assert (Z0 : h_rg h Zero = 0) by apply Q. assert (N2 : h_rg h T2 <> 0) by apply Q. rewrite Z0 in ST. destruct (Z.eqb_spec (h_rg h T2) 0); [contradiction|].
      apply some3 in ST; destruct ST as (-> & -> & ->). left. split; [apply quiet_refl|]. apply ph_u9 with (w := w0). apply At_start; cbn [h_pc h_rg]; [lia|]. apply blkU_wp, Q.
    + destruct (N _ _ _ _ ST) as (A' & _ & QU'). left. split; [exact QU'|]. now apply ph_u with (w := w0).
  - destruct (At_step _ _ _ _ _ _ _ placed_U A) as [[PC Q]|[_ N]].
    + change (length blkU) with 4%nat in PC. replace (kt + 9 + 4)%nat with (kt + 13)%nat in PC by lia.
      unfold hstep in ST. rewrite PC, nth_tail in ST by lia. cbn [nth_error cas_tail app exec_cond Beqz post map] in ST.
      assert (Z0 : h_rg h Zero = 0) by apply Q. assert (A0Z : h_rg h A0 = 0) by apply Q. rewrite Z0, A0Z in ST. cbn [Z.eqb] in ST. rewrite find_begin in ST.
      apply some3 in ST; destruct ST as (-> & -> & ->). left. split; [apply quiet_refl|]. apply ph_2 with (v := w0). exists 3%nat. cbn [h_pc h_rg].
      split; [rewrite app_length; cbn; lia|]. split; [reflexivity|]. apply b2_again; apply Q.
    + destruct (N _ _ _ _ ST) as (A' & _ & QU'). left. split; [exact QU'|]. now apply ph_u9 with (w := w0).
  - destruct (At_step _ _ _ _ _ _ _ placed_R A) as [[PC Q]|[_ N]].
    + change (length blkR) with 3%nat in PC. replace (kt + 5 + 3)%nat with (kt + 8)%nat in PC by lia.
      unfold hstep in ST. rewrite PC, nth_tail in ST by lia. cbn [nth_error cas_tail app exec_cond Beqz] in ST.
      assert (Z0 : h_rg h Zero = 0) by apply Q. assert (N2 : h_rg h T2 = 0) by apply Q. rewrite Z0, N2 in ST. cbn [Z.eqb] in ST. rewrite find_end in ST.
      apply some3 in ST; destruct ST as (-> & -> & ->). left. split; [apply quiet_refl|]. apply ph_c10. apply At_start; cbn [h_pc h_rg]; [lia|]. apply blkC_wp, Q.
    + destruct (N _ _ _ _ ST) as (A' & _ & QU'). left. split; [exact QU'|]. now apply ph_c.
  - destruct (At_step _ _ _ _ _ _ _ placed_C A) as [[PC Q]|[_ N]].
    + change (length blkC) with 3%nat in PC. replace (kt + 10 + 3)%nat with (kt + 13)%nat in PC by lia.
      unfold hstep in ST. rewrite PC, nth_tail in ST by lia. cbn [nth_error cas_tail app exec_cond Beqz post map] in ST.
      assert (Z0 : h_rg h Zero = 0) by apply Q. assert (A0Z : h_rg h A0 = 1) by apply Q. rewrite Z0, A0Z in ST. cbn [Z.eqb] in ST.
      apply some3 in ST; destruct ST as (-> & -> & ->). left. split; [apply quiet_refl|]. apply ph_c14. apply At_start; cbn [h_pc h_rg]; [lia|]. apply blkF_wp, Q.
    + destruct (N _ _ _ _ ST) as (A' & _ & QU'). left. split; [exact QU'|]. now apply ph_c10.
  - destruct (At_step _ _ _ _ _ _ _ placed_F A) as [[PC Q]|[_ N]].
    + change (length blkF) with 3%nat in PC. unfold hstep in ST. rewrite PC in ST. replace (kt + 14 + 3)%nat with (length p) in ST by (rewrite len_p; unfold fin; lia).
      assert (EN : nth_error p (length p) = None) by (apply nth_error_None; lia). rewrite EN in ST. discriminate.
    + destruct (N _ _ _ _ ST) as (A' & _ & QU'). left. split; [exact QU'|]. now apply ph_c14.
Qed.
Lemma phase_start h m : h_pc h = L0 -> Base (h_rg h) m -> phase h m None.
Proof. intros PC B. apply ph_1, At_start; auto. eapply blk1_wp; eauto. Qed.
Lemma phase_end h m st : phase h m st -> h_pc h = length p -> exists z, st = Some z /\ h_rg h A0 = wrap z /\ h_rg h Sp = sp /\ h_rg h Fp = fp.
Proof.
  intros PH E. rewrite len_p in E. assert (LB : (length (blk0 ++ b2) = 3 + length b2)%nat) by reflexivity.
  destruct PH as [A|v A|v PC Q|v w0 PC Q W T RS|v PC Q T RS|v PC Q A|z PC B IZ T A|w0 A|w0 A|z A|z A|z A];
    try (destruct A as (j & LE & PC & W); cbn [length blk1 push_code app] in LE); unfold fin, kt, k2 in *; try (exfalso; rewrite ?LB in *; cbn [length blkR blkU blkC] in *; lia).
  exists z. split; [reflexivity|]. cbn [length blkF] in LE. assert (j = 3%nat) by lia. subst j. cbn in W. destruct W as (B & IZ & AA). destruct B as (_ & FP & SP & _). auto.
Qed.

(** ** A hart left alone finishes. *)
Definition goes (h : hart) (m : mem) : Prop := exists n h' m', alone p n h m = Some (h', m') /\ h_pc h' = length p.
Lemma goes_step h m h' m' w : hstep p true h m = Some (h', m', w) -> goes h' m' -> goes h m.
Proof. intros E (j & h2 & m2 & A & B). exists (S j), h2, m2. split; [|exact B]. cbn [alone]. rewrite E. exact A. Qed.
Lemma straight_goes h m i rs1 m1 : nth_error p (h_pc h) = Some (AI i) -> exec_straight sym0 i (h_rg h) m = Some (rs1, m1) ->
  exists w, hstep p true h m = Some (Hart (S (h_pc h)) rs1 (h_res h), m1, w).
Proof.
  intros E X1. unfold hstep. rewrite E. change (fun _ => 0) with sym0. destruct i; try discriminate X1; rewrite X1; eauto.
Qed.
Lemma at_X_quiet w m m' : quiet P w m m' -> at_X X m' = at_X X m.
Proof. intros [_ Q]. unfold at_X. f_equal. apply le_load_ext. intros i Hi. f_equal. apply Q. apply XP. lia. Qed.
Lemma At_goes k0 blk (Q : regs -> mem -> Prop) : placed p k0 blk -> forall h m, At P k0 blk Q h m ->
  (forall h' m', h_pc h' = (k0 + length blk)%nat -> Q (h_rg h') m' -> at_X X m' = at_X X m -> goes h' m') -> goes h m.
Proof.
  intros PL h m A. assert (exists d, (d + (h_pc h - k0) = length blk)%nat) as [d D].
  { destruct A as (j & LE & PC & _). exists (length blk - j)%nat. lia. }
  revert h m A D. induction d as [|d IH]; intros h m A D H.
  - destruct (At_step _ _ _ _ _ _ _ PL A) as [[PC Q0]|[LT _]]; [auto|exfalso; destruct A as (j & LE & PC & _); lia].
  - assert (A1 := A). destruct A as (j & LE & PC & W). assert (LT : (j < length blk)%nat) by lia. destruct (skipn_nth blk j LT) as (i & N & SK). rewrite SK in W. cbn [wp] in W.
    destruct W as (AC & rs1 & m1 & X1 & W). apply PL in N. rewrite <- PC in N. destruct (straight_goes h m i rs1 m1 N X1) as [w E].
    destruct (At_step _ _ _ _ _ _ _ PL A1) as [[PC2 _]|[_ ST]]; [lia|]. destruct (ST _ _ _ _ E) as (A2 & _ & QU0).
    eapply goes_step; [exact E|]. apply IH; [exact A2|cbn [h_pc]; lia|]. intros h2 m2 P2 Q2 E2. apply H; auto. rewrite E2. eapply at_X_quiet; eauto.
Qed.
Ltac st := unfold hstep; cbn [h_pc h_rg h_res].
Lemma go_c14 z h m : At P (kt + 14) blkF (QF z) h m -> goes h m.
Proof.
  intros A. eapply At_goes; [exact placed_F|exact A|]. intros h' m' PC _ _. exists 0%nat, h', m'. split; [reflexivity|]. rewrite len_p. unfold fin. cbn in PC. lia.
Qed.
Lemma go_c10 z h m : At P (kt + 10) blkC (QD z) h m -> goes h m.
Proof.
  intros A. eapply At_goes; [exact placed_C|exact A|]. intros h' m' PC Q _. change (length blkC) with 3%nat in PC. replace (kt + 10 + 3)%nat with (kt + 13)%nat in PC by lia.
  assert (Z0 : h_rg h' Zero = 0) by apply Q. assert (AZ : h_rg h' A0 = 1) by apply Q.
  eapply goes_step; [st; rewrite PC, nth_tail by lia; cbn [nth_error cas_tail app exec_cond Beqz post map]; rewrite Z0, AZ; cbn [Z.eqb]; reflexivity|].
  eapply go_c14. apply At_start; cbn [h_pc h_rg]; [lia|]. apply blkF_wp, Q.
Qed.
Lemma go_c z h m : At P (kt + 5) blkR (QC z) h m -> goes h m.
Proof.
  intros A. eapply At_goes; [exact placed_R|exact A|]. intros h' m' PC Q _. change (length blkR) with 3%nat in PC. replace (kt + 5 + 3)%nat with (kt + 8)%nat in PC by lia.
  assert (Z0 : h_rg h' Zero = 0) by apply Q. assert (AZ : h_rg h' T2 = 0) by apply Q.
  eapply goes_step; [st; rewrite PC, nth_tail by lia; cbn [nth_error cas_tail app exec_cond Beqz post map]; rewrite Z0, AZ; cbn [Z.eqb]; rewrite find_end; reflexivity|].
  eapply go_c10. apply At_start; cbn [h_pc h_rg]; [lia|]. apply blkC_wp, Q.
Qed.
Lemma go_ok z h m : h_pc h = (kt + 4)%nat -> Base (h_rg h) m -> is_int z m ON -> h_rg h T4 = h_rg h T2 -> h_rg h A0 = 0 -> goes h m.
Proof.
  intros PC B IZ T A. assert (Z0 : h_rg h Zero = 0) by apply B.
  eapply goes_step; [st; rewrite PC, nth_tail by lia; cbn [nth_error cas_tail app exec_cond Bnez]; rewrite A, Z0; cbn [Z.eqb negb]; reflexivity|].
  eapply go_c. apply At_start; cbn [h_pc h_rg]; [lia|]. apply blkR_c; eauto.
Qed.
(** the store-conditional succeeds *)
Lemma go_sc v h m : h_pc h = (kt + 3)%nat -> Q3 v (h_rg h) m -> h_rg h T4 = wrap v -> h_res h = Some X -> goes h m.
Proof.
  intros PC Q T R. assert (T0X : h_rg h T0 = X) by apply Q. destruct Q as (B & I1 & (z & IZ & G & T3Z) & _ & T1O & T2V).
  eapply goes_step; [st; rewrite PC, nth_tail by lia; cbn [nth_error cas_tail app]; rewrite T0X, XO, R, Z.eqb_refl; cbn [negb andb]; reflexivity|].
  assert (AG : forall a, P a -> le_store m X 4 (h_rg h T3) a = m a) by (intros a Pa; apply le_store_out; assert (~ (X <= a < X + 4)) by (intros HH; eapply XP; eauto); lia).
  apply go_ok with (z := z); cbn [h_pc h_rg]; [lia| | |change (h_rg h T4 = h_rg h T2); congruence|reflexivity].
  - eapply Base_stable; eauto. apply base_set; auto; try discriminate; lia.
  - eapply int_agree_n; eauto.
Qed.
Lemma Q3_set4 v rs m x : Q3 v rs m -> 0 <= x < 2 ^ 64 -> Q3 v (setr rs T4 x) m.
Proof. intros (B & I1 & Z1 & H) R. split; [apply base_set; auto; discriminate|]. split; [exact I1|]. split; [exact Z1|exact H]. Qed.
(** the int still has the value [old] *)
Lemma go_lr_same v h m : h_pc h = (kt + 1)%nat -> Q3 v (h_rg h) m -> at_X X m = v -> goes h m.
Proof.
  intros PC Q E. assert (T0X : h_rg h T0 = X) by apply Q. assert (T2V : h_rg h T2 = wrap v) by apply Q.
  eapply goes_step; [st; rewrite PC, nth_tail by lia; cbn [nth_error cas_tail app]; rewrite T0X, XO; reflexivity|].
  change (sx 32 (le_load m X 4)) with (at_X X m). rewrite E.
  eapply goes_step; [st; replace (S (kt + 1)) with (kt + 2)%nat by lia; rewrite nth_tail by lia; cbn [nth_error cas_tail app exec_cond];
    rewrite setr_same, setr_other, T2V, Z.eqb_refl by discriminate; cbn [negb]; reflexivity|].
  apply go_sc with (v := v); cbn [h_pc h_rg h_res]; [lia|apply Q3_set4; [exact Q|apply wrap_rng]|reflexivity|reflexivity].
Qed.
Lemma go_retry_same v h m : At P k2 (blk0 ++ b2) (Q3 v) h m -> at_X X m = v -> goes h m.
Proof.
  intros A E. eapply At_goes; [exact placed_2|exact A|]. intros h' m' PC Q E'. rewrite app_length in PC. cbn [length blk0 pop_code app] in PC.
  assert (PC1 : h_pc h' = (kt + 0)%nat) by (rewrite PC; unfold k2, kt; lia).
  eapply goes_step; [st; rewrite PC1, nth_tail by lia; cbn; reflexivity|]. apply go_lr_same with (v := v); cbn [h_pc h_rg]; [lia|exact Q|congruence].
Qed.
(** it has another value: the hart takes that one. *)
Lemma go_u9 w h m : At P (kt + 9) blkU (QV w) h m -> (forall h' m', At P k2 (blk0 ++ b2) (Q3 w) h' m' -> at_X X m' = at_X X m -> goes h' m') -> goes h m.
Proof.
  intros A E. eapply At_goes; [exact placed_U|exact A|]. intros h' m' PC Q E'. change (length blkU) with 4%nat in PC. replace (kt + 9 + 4)%nat with (kt + 13)%nat in PC by lia.
  assert (Z0 : h_rg h' Zero = 0) by apply Q. assert (AZ : h_rg h' A0 = 0) by apply Q.
  eapply goes_step; [st; rewrite PC, nth_tail by lia; cbn [nth_error cas_tail app exec_cond Beqz post map]; rewrite Z0, AZ; cbn [Z.eqb]; rewrite find_begin; reflexivity|].
  apply E; [|congruence]. exists 3%nat. cbn [h_pc h_rg]. split; [rewrite app_length; cbn; lia|]. split; [reflexivity|]. apply b2_again; apply Q.
Qed.
Lemma go_u w h m : At P (kt + 5) blkR (QU w) h m -> (forall h' m', At P k2 (blk0 ++ b2) (Q3 w) h' m' -> at_X X m' = at_X X m -> goes h' m') -> goes h m.
Proof.
  intros A E. eapply At_goes; [exact placed_R|exact A|]. intros h' m' PC Q E'. change (length blkR) with 3%nat in PC. replace (kt + 5 + 3)%nat with (kt + 8)%nat in PC by lia.
  assert (Z0 : h_rg h' Zero = 0) by apply Q. assert (AZ : h_rg h' T2 <> 0) by apply Q.
  eapply goes_step; [st; rewrite PC, nth_tail by lia; cbn [nth_error cas_tail app exec_cond Beqz post map]; rewrite Z0; destruct (Z.eqb_spec (h_rg h' T2) 0); [contradiction|reflexivity]|].
  apply go_u9 with (w := w); [|intros h2 m2 A2 E2; apply E; congruence]. apply At_start; cbn [h_pc h_rg]; [lia|]. apply blkU_wp, Q.
Qed.
Lemma go_lr v h m : h_pc h = (kt + 1)%nat -> Q3 v (h_rg h) m -> goes h m.
Proof.
  intros PC Q. destruct (Z.eq_dec (at_X X m) v) as [E|NE]; [eapply go_lr_same; eauto|].
  assert (T0X : h_rg h T0 = X) by apply Q. assert (T2V : h_rg h T2 = wrap v) by apply Q.
  eapply goes_step; [st; rewrite PC, nth_tail by lia; cbn [nth_error cas_tail app]; rewrite T0X, XO; reflexivity|].
  change (sx 32 (le_load m X 4)) with (at_X X m). assert (VI := Q3_int _ _ _ Q). assert (XI := at_X_int m).
  assert (NW : wrap (at_X X m) =? wrap v = false) by (apply Z.eqb_neq; intros HW; apply wrap_int in HW; auto).
  eapply goes_step; [st; replace (S (kt + 1)) with (kt + 2)%nat by lia; rewrite nth_tail by lia; cbn [nth_error cas_tail app exec_cond];
    rewrite setr_same, setr_other, T2V, NW by discriminate; cbn [negb]; rewrite find_return; reflexivity|].
  apply go_u with (w := at_X X m); [|intros h2 m2 A2 E2; eapply go_retry_same; eauto]. apply At_start; [reflexivity|]. cbn [h_rg].
  assert (Q' := Q3_set4 _ _ _ (wrap (at_X X m)) Q (wrap_rng _)). apply blkR_u with (v := v); try apply Q'; auto.
Qed.
Lemma go_retry v h m : At P k2 (blk0 ++ b2) (Q3 v) h m -> goes h m.
Proof.
  intros A. eapply At_goes; [exact placed_2|exact A|]. intros h' m' PC Q E'. rewrite app_length in PC. cbn [length blk0 pop_code app] in PC.
  assert (PC1 : h_pc h' = (kt + 0)%nat) by (rewrite PC; unfold k2, kt; lia).
  eapply goes_step; [st; rewrite PC1, nth_tail by lia; cbn; reflexivity|]. apply go_lr with (v := v); cbn [h_pc h_rg]; [lia|exact Q].
Qed.
Lemma go_phase h m st : phase h m st -> goes h m.
Proof.
  assert (RT : forall v h' m', h_pc h' = (kt + 0)%nat -> Q3 v (h_rg h') m' -> goes h' m').
  { intros v h' m' PC Q. eapply go_retry. apply At_end; [|exact Q]. rewrite PC, app_length. cbn [length blk0 pop_code app]. unfold k2, kt. lia. }
  assert (FL : forall v h' m', h_pc h' = (kt + 4)%nat -> Q3 v (h_rg h') m' -> h_rg h' A0 = 1 -> goes h' m').
  { intros v h' m' PC Q A. assert (Z0 : h_rg h' Zero = 0) by apply Q.
    eapply goes_step; [st; rewrite PC, nth_tail by lia; cbn [nth_error cas_tail app exec_cond Bnez]; rewrite A, Z0; cbn [Z.eqb negb]; rewrite find_retry; reflexivity|].
    eapply RT; [reflexivity|exact Q]. }
  assert (SC : forall v h' m', h_pc h' = (kt + 3)%nat -> Q3 v (h_rg h') m' -> h_rg h' T4 = wrap v -> goes h' m').
  { intros v h' m' PC Q T. assert (T0X : h_rg h' T0 = X) by apply Q.
    destruct (match h_res h' with Some b => X =? b | None => false end) eqn:R.
    - destruct (h_res h') as [b|] eqn:HR; [|discriminate]. apply Z.eqb_eq in R. subst b. eapply go_sc; eauto.
    - eapply goes_step; [st; rewrite PC, nth_tail by lia; cbn [nth_error cas_tail app]; rewrite T0X, XO, R; cbn [negb andb]; reflexivity|].
      apply FL with (v := v); cbn [h_pc h_rg]; [lia| |reflexivity].
      destruct Q as (B & I1 & Z1 & H). split; [apply base_set; auto; try discriminate; lia|]. split; [exact I1|]. split; [exact Z1|exact H]. }
  intros PH. destruct PH as [A|v A|v PC Q|v w0 PC Q W T RS|v PC Q T RS|v PC Q A|z PC B IZ T A|w0 A|w0 A|z A|z A|z A].
  - eapply At_goes; [exact placed_1|exact A|]. intros h' m' PC Q _. change (length b1) with 5%nat in PC.
    assert (AX : h_rg h' A0 = X) by apply Q.
    assert (EE : ea (h_rg h') A0 0 4 = Some X).
    { unfold ea. rewrite AX, Z.add_0_r, wrap_id by (unfold word_ok in XO; lia). cbv zeta. replace (X + 4 <=? 2 ^ 64) with true by (unfold word_ok in XO; lia). reflexivity. }
    eapply goes_step; [st; rewrite PC, nth_shared; unfold lw; cbn [exec_straight]; rewrite EE; reflexivity|].
    apply go_retry with (v := at_X X m'). apply At_start; cbn [h_pc h_rg]; [unfold k2; lia|]. apply blk02_wp; [exact Q|apply at_X_int].
  - eapply go_retry; eauto.
  - eapply go_lr; eauto.
  - assert (T2V : h_rg h T2 = wrap v) by apply Q. assert (VI := Q3_int _ _ _ Q). destruct (Z.eqb_spec (wrap w0) (wrap v)) as [E|NE].
    + eapply goes_step; [st; rewrite PC, nth_tail by lia; cbn [nth_error cas_tail app exec_cond]; rewrite T, T2V, E, Z.eqb_refl; cbn [negb]; reflexivity|].
      apply wrap_int in E; auto. subst w0. apply SC with (v := v); cbn [h_pc h_rg]; auto; lia.
    + eapply goes_step; [st; rewrite PC, nth_tail by lia; cbn [nth_error cas_tail app exec_cond]; rewrite T, T2V; replace (wrap w0 =? wrap v) with false by lia; cbn [negb]; rewrite find_return; reflexivity|].
      apply go_u with (w := w0); [|intros h2 m2 A2 _; eapply go_retry; eauto]. apply At_start; [reflexivity|]. cbn [h_rg]. apply blkR_u with (v := v); try apply Q; auto. congruence.
  - eapply SC; eauto.
  - eapply FL; eauto.
  - eapply go_ok; eauto.
  - eapply go_u; eauto. intros h2 m2 A2 _. eapply go_retry; eauto.
  - eapply go_u9; eauto. intros h2 m2 A2 _. eapply go_retry; eauto.
  - eapply go_c; eauto.
  - eapply go_c10; eauto.
  - eapply go_c14; eauto.
Qed.
End Phases.

Lemma chain_app a tr b e d : chain a tr b -> chain b e d -> chain a (tr ++ e) d.
Proof. revert a; induction tr as [|x tr IH]; intros a H1 H2; cbn in *; [subst; exact H2|]. destruct H1. split; auto. Qed.
Lemma by_hart_app t a b : by_hart t (a ++ b) = by_hart t a ++ by_hart t b.
Proof. apply filter_app. Qed.

(** What every hart of the run begins with *)
Definition begins (code : list ainstr) (own : Z -> Prop) (X : Z) (j : job) (n c u : Z) (h : hart) (m : mem) : Prop :=
  is_assign_op (j_op j) = true /\ is_arith (j_type j) = true /\
  code = p (j_off j) (j_first j) (j_type j) (j_op j) n c u (j_before j) /\ NoDup (alabels code) /\
  ready own X (j_off j) (j_first j) (j_type j) (j_val j) (j_fp j) (j_sp j) (h_rg h) m /\ h_pc h = length (j_before j).
Definition known (code : list ainstr) (own : Z -> Prop) (X : Z) (j : job) (n c u : Z) (h : hart) (m : mem) (st : option Z) : Prop :=
  phase own X (j_off j) (j_first j) (j_type j) (j_val j) (j_fp j) (j_sp j) (j_op j) n c u (j_before j) h m st.

Section System.
Variables (N : nat) (J : nat -> job) (code : nat -> list ainstr) (own : nat -> Z -> Prop) (X : Z) (Ln Lc Lu : nat -> Z) (c0 : conf).
Hypothesis IDLE : forall t, (N <= t)%nat -> code t = [].
Hypothesis BEG : forall t, (t < N)%nat -> begins (code t) (own t) X (J t) (Ln t) (Lc t) (Lu t) (c_hart c0 t) (c_mem c0).
Hypothesis XO : word_ok X = true.
Hypothesis DIS : forall t t' a, (t < N)%nat -> (t' < N)%nat -> t <> t' -> own t a -> ~ own t' a.
Hypothesis XP : forall t a, (t < N)%nat -> own t a -> ~ (X <= a < X + 4).

Lemma beg_facts t : (t < N)%nat -> let j := J t in
  is_assign_op (j_op j) = true /\ is_arith (j_type j) = true /\ ForallOrdPairs apart (areas (j_fp j) (j_sp j) (j_off j) (j_first j) (j_type j)) /\
  Forall (fun r => 0 <= fst r /\ fst r + snd r <= 2 ^ 64 /\ forall a, fst r <= a < fst r + snd r -> own t a) (areas (j_fp j) (j_sp j) (j_off j) (j_first j) (j_type j)) /\
  0 <= X /\ j_sp j < 2 ^ 64 /\ (forall i, (i < 4)%nat -> -2048 <= j_off j (j_first j + i)%nat <= 2047) /\ (forall a, X <= a < X + 4 -> ~ own t a) /\
  code t = p (j_off j) (j_first j) (j_type j) (j_op j) (Ln t) (Lc t) (Lu t) (j_before j) /\ NoDup (alabels (code t)).
Proof.
  intros L. cbv zeta. destruct (BEG t L) as (OP & TB & CO & ND & RD & PC). destruct RD.
  assert (X0 : 0 <= X) by (rewrite <- rd_addr; pose proof (le_load_range (c_mem c0) (j_fp (J t) + j_off (J t) (j_first (J t))) 8); lia).
  assert (SR : j_sp (J t) < 2 ^ 64) by (pose proof (rd_regs Sp); lia).
  repeat (split; [assumption|]). split; [|auto]. intros a HA HO. exact (XP t a L HO HA).
Qed.

Definition inv (tr : list event) (c : conf) : Prop :=
  chain (at_X X (c_mem c0)) tr (at_X X (c_mem c)) /\
  forall t, (t < N)%nat -> exists st, known (code t) (own t) X (J t) (Ln t) (Lc t) (Lu t) (c_hart c t) (c_mem c) st /\
    match st with
    | None => by_hart t tr = []
    | Some z => exists v, by_hart t tr = [Ev (Some t) v z] /\ forall z', op_value (j_op (J t)) (j_type (J t)) v (j_val (J t)) = Some z' -> z = z'
    end.

Lemma inv_start : inv [] c0.
Proof.
  split; [reflexivity|]. intros t L. destruct (beg_facts t L) as (OP & TB & AP & MI & X0 & SR & NR & XN & CO & ND).
  destruct (BEG t L) as (_ & _ & _ & _ & RD & PC). exists None. split; [|reflexivity]. unfold known. destruct RD.
  eapply phase_start; eauto. split; [split; auto|]. split; auto. split; auto. split; auto.
Qed.
Lemma disturb_facts w h : h_pc (disturb w h) = h_pc h /\ h_rg (disturb w h) = h_rg h /\ (forall a, h_res (disturb w h) = Some a -> h_res h = Some a /\ overlap a 4 w = false).
Proof.
  unfold disturb. destruct (h_res h) as [b|] eqn:R; [|repeat split; auto; congruence].
  destruct (overlap b 4 w) eqn:O; cbn; repeat split; auto; try congruence.
Qed.
Lemma inv_step tr c e c' : inv tr c -> cstep code own X c e c' -> inv (tr ++ e) c'.
Proof.
  intros [CH H] ST. destruct ST as [c t luck h m w ST|c hs m OWN KEEP RES].
  - assert (LT : (t < N)%nat). { destruct (Nat.lt_ge_cases t N) as [|GE]; auto. rewrite (IDLE t GE) in ST. unfold hstep in ST. destruct (h_pc (c_hart c t)); discriminate. }
    destruct (beg_facts t LT) as (OP & TB & AP & MI & X0 & SR & NR & XN & CO & ND).
    destruct (H t LT) as (st & PH & TR). rewrite CO in ST, ND. unfold known in PH.
    destruct (phase_step _ _ _ _ _ _ _ _ _ _ _ _ _ OP TB AP MI XO X0 SR NR XN ND luck _ _ _ _ _ _ PH ST) as [[Q PH']|(z & -> & -> & G & E & AG & PH')].
    + assert (OV : overlap X 4 w = false).
      { unfold overlap. destruct w as [[b n]|]; [|reflexivity]. destruct Q as [Q _]. specialize (Q b n eq_refl).
        destruct ((0 <? n) && (X <? b + n) && (b <? X + 4)) eqn:O; auto. exfalso. destruct (Z.max_spec X b) as [[? M]|[? M]]; apply (XN (Z.max X b)); try lia; apply Q; lia. }
      assert (EX : at_X X m = at_X X (c_mem c)).
      { unfold at_X. f_equal. apply le_load_ext. intros i Hi. f_equal. apply Q. apply XN. lia. }
      rewrite OV, app_nil_r. split; cbn [c_mem c_hart]; [rewrite EX; exact CH|]. intros t' L'. destruct (Nat.eqb_spec t' t) as [->|NE].
      * exists st. split; auto.
      * destruct (H t' L') as (st' & PH2 & TR2). exists st'. split; [|exact TR2].
        destruct (beg_facts t' L') as (OP2 & TB2 & AP2 & MI2 & _ & SR2 & NR2 & XN2 & CO2 & ND2). destruct (disturb_facts w (c_hart c t')) as (D1 & D2 & D3).
        eapply phase_agree; eauto.
        -- intros a Ha. apply Q. intros O. exact (DIS t t' a LT L' (not_eq_sym NE) O Ha).
        -- intros R. destruct (D3 _ R). split; auto.
    + assert (OV : overlap X 4 (Some (X, 4)) = true) by (cbn; lia).
      rewrite OV. split; cbn [c_mem c_hart]; [eapply chain_app; [exact CH|]; cbn; auto|]. intros t' L'. rewrite by_hart_app. destruct (Nat.eqb_spec t' t) as [->|NE].
      * exists (Some z). split; [exact PH'|]. rewrite TR. cbn. rewrite Nat.eqb_refl. exists (at_X X (c_mem c)). rewrite E. split; [reflexivity|exact G].
      * destruct (H t' L') as (st' & PH2 & TR2). exists st'. cbn [by_hart filter e_by]. replace (Nat.eqb t t') with false by (symmetry; apply Nat.eqb_neq; auto). rewrite app_nil_r. split; [|exact TR2].
        destruct (beg_facts t' L') as (OP2 & TB2 & AP2 & MI2 & _ & SR2 & NR2 & XN2 & CO2 & ND2). destruct (disturb_facts (Some (X, 4)) (c_hart c t')) as (D1 & D2 & D3).
        eapply phase_agree; eauto.
        -- intros a Ha. apply AG. intros O. eapply XN2; eauto.
        -- intros R. destruct (D3 _ R) as [_ D4]. congruence.
  - split; cbn [c_mem c_hart]; [eapply chain_app; [exact CH|]; cbn; auto|]. intros t L. rewrite by_hart_app. cbn [by_hart filter e_by]. rewrite app_nil_r.
    destruct (H t L) as (st & PH & TR). exists st. split; [|exact TR].
    destruct (beg_facts t L) as (OP & TB & AP & MI & _ & SR & NR & XN & CO & ND). destruct (KEEP t) as [K1 K2].
    eapply phase_agree; eauto.
    + intros a Ha. eapply OWN; eauto.
    + intros R. destruct (RES t X R) as [R1 R2]. split; auto. unfold at_X. f_equal. apply le_load_ext. intros i Hi. f_equal. apply R2. lia.
Qed.
Lemma inv_run tr c : crun code own X c0 tr c -> inv tr c.
Proof. intros R. remember c0 as d eqn:D. induction R; subst; [apply inv_start|]. eapply inv_step; eauto. Qed.
Lemma phase_bound P' X' off k0 tb' y' fp' sp' o' n' c' u' pre' h m st : phase P' X' off k0 tb' y' fp' sp' o' n' c' u' pre' h m st -> (h_pc h <= length (p off k0 tb' o' n' c' u' pre'))%nat.
Proof.
  intros PH. rewrite len_p. assert (LB : (length (blk0 ++ blk2 (off k0) (off (S k0)) (off (S (S k0))) (off (S (S (S k0)))) tb' o' n' u') = 3 + length (blk2 (off k0) (off (S k0)) (off (S (S k0))) (off (S (S (S k0)))) tb' o' n' u'))%nat) by reflexivity.
  destruct PH as [A|v A|v PC Q|v w0 PC Q W T RS|v PC Q T RS|v PC Q A|z PC B IZ T A|w0 A|w0 A|z A|z A|z A];
    try (destruct A as (j & LE & PC & W); cbn [length blk1 push_code app] in LE); unfold fin, kt, k2 in *; rewrite ?LB in *; cbn [length blkR blkU blkC blkF] in *; lia.
Qed.
Lemma system tr c : crun code own X c0 tr c ->
  chain (at_X X (c_mem c0)) tr (at_X X (c_mem c)) /\ forall t, (t < N)%nat -> update_once (J t) t (length (code t)) tr (c_hart c t).
Proof.
  intros R. destruct (inv_run _ _ R) as [CH H]. split; [exact CH|]. intros t L. destruct (H t L) as (st & PH & TR).
  destruct (beg_facts t L) as (OP & TB & AP & MI & X0 & SR & NR & XN & CO & ND). unfold known in PH.
  assert (B := phase_bound _ _ _ _ _ _ _ _ _ _ _ _ _ _ _ _ PH). rewrite CO. destruct st as [z|].
  - right. destruct TR as (v & TR & G). exists v, z. split; [exact TR|]. split; [intros z' E; auto|]. intros PC.
    eapply phase_end in PH; eauto. destruct PH as (z' & EZ & A1 & A2 & A3). assert (z' = z) by congruence. subst. auto.
  - left. split; [exact TR|]. destruct (Nat.eq_dec (h_pc (c_hart c t)) (length (p (j_off (J t)) (j_first (J t)) (j_type (J t)) (j_op (J t)) (Ln t) (Lc t) (Lu t) (j_before (J t))))) as [E|NE]; [|lia].
    eapply phase_end in PH; eauto. destruct PH as (z' & EZ & _). discriminate.
Qed.
Lemma system_go tr c t : crun code own X c0 tr c -> (t < N)%nat -> exists n h m, alone (code t) n (c_hart c t) (c_mem c) = Some (h, m) /\ h_pc h = length (code t).
Proof.
  intros R L. destruct (inv_run _ _ R) as [_ H]. destruct (H t L) as (st & PH & _).
  destruct (beg_facts t L) as (OP & TB & AP & MI & X0 & SR & NR & XN & CO & ND). unfold known in PH. rewrite CO in *. eapply go_phase in PH; eauto.
Qed.
End System.
