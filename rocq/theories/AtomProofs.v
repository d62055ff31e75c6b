(** Several harts updating one int. *)
From Verif Require Import Base TypeModel IntArith NodeModel ValSpec NodeSpec NodeProofs RvSpec ElabSpec GenModel GenSpec RvProofs GenBits GenRun GenSim AtomSpec AtomModel.
From Coq Require Import ZifyBool ZifyNat.
Local Notation length := List.length.
Local Arguments Z.mul : simpl never. Local Arguments Z.add : simpl never. Local Arguments Z.sub : simpl never.
Local Arguments Z.pow : simpl never. Local Arguments Z.modulo : simpl never. Local Arguments Z.div : simpl never.

Definition sym0 : bytes -> Z := fun _ => 0.

(** ** Straight code that stays in its own memory *)
Section Wp.
Variable P : Z -> Prop.
Definition agree (m m' : mem) : Prop := forall a, P a -> m' a = m a.
Definition acc (i : instr) (rs : regs) : Prop :=
  match i with
  | ILoad _ n _ off r | IStore n _ off r => 0 <= n /\ exists a, ea rs r off n = Some a /\ forall x, a <= x < a + n -> P x
  | IFLoad _ _ _ _ | IFStore _ _ _ _ => False
  | _ => True
  end.
Fixpoint wp (c : list instr) (Q : regs -> mem -> Prop) (rs : regs) (m : mem) : Prop :=
  match c with
  | [] => Q rs m
  | i :: c => acc i rs /\ exists rs1 m1, exec_straight sym0 i rs m = Some (rs1, m1) /\ wp c Q rs1 m1
  end.
Definition stable (Q : regs -> mem -> Prop) : Prop := forall rs m m', agree m m' -> Q rs m -> Q rs m'.

Lemma wp_app a b Q rs m : wp (a ++ b) Q rs m <-> wp a (wp b Q) rs m.
Proof.
  revert rs m; induction a as [|i a IH]; intros rs m; cbn [wp app]; [tauto|].
  split; intros (A1 & rs1 & m1 & X & H); (split; [exact A1|]); exists rs1, m1; (split; [exact X|]); apply IH; exact H.
Qed.
Lemma wp_mono c (Q R : regs -> mem -> Prop) rs m : (forall rs m, Q rs m -> R rs m) -> wp c Q rs m -> wp c R rs m.
Proof.
  intros I. revert rs m; induction c as [|i c IH]; intros rs m; cbn [wp]; auto.
  intros (A1 & rs1 & m1 & X & H). split; [exact A1|]. exists rs1, m1. auto.
Qed.
Lemma wp_exec c Q rs m : wp c Q rs m -> wp c (fun rs' m' => Q rs' m' /\ exec_list sym0 c rs m = Some (rs', m')) rs m.
Proof.
  revert rs m; induction c as [|i c IH]; intros rs m; cbn [wp exec_list]; auto.
  intros (A1 & rs1 & m1 & X & H). split; [exact A1|]. exists rs1, m1. split; [exact X|]. rewrite X. now apply IH.
Qed.
Lemma load_agree m m' a n : agree m m' -> (forall x, a <= x < a + Z.of_nat n -> P x) -> le_load m' a n = le_load m a n.
Proof. intros AG H. apply le_load_ext. intros i Hi. rewrite AG; auto. apply H. lia. Qed.
Lemma store_agree m m' a n v : agree m m' -> agree (le_store m a n v) (le_store m' a n v).
Proof. intros AG x Px. unfold le_store. destruct ((a <=? x) && (x <? a + n)); auto. Qed.
Lemma exec_agree i rs m m' rs1 m1 : acc i rs -> agree m m' -> exec_straight sym0 i rs m = Some (rs1, m1) ->
  exists m1', exec_straight sym0 i rs m' = Some (rs1, m1') /\ agree m1 m1'.
Proof.
  intros AC AG X. destruct i; cbn [exec_straight acc] in *; try discriminate; try contradiction; try (injection X as <- <-; eexists; split; [reflexivity|]; exact AG).
  - destruct AC as (N & a & EA & IN). rewrite EA in *. rewrite (load_agree _ _ _ _ AG) by (intros x Hx; apply IN; lia). inversion X; subst. eexists. split; [reflexivity|exact AG].
  - destruct AC as (N & a & EA & IN). rewrite EA in *. inversion X; subst. eexists. split; [reflexivity|]. now apply store_agree.
Qed.
Lemma wp_agree c Q rs m m' : stable Q -> agree m m' -> wp c Q rs m -> wp c Q rs m'.
Proof.
  intros ST. revert rs m m'; induction c as [|i c IH]; intros rs m m' AG; cbn [wp]; [apply ST; auto|].
  intros (A1 & rs1 & m1 & X & H). split; [exact A1|]. destruct (exec_agree _ _ _ _ _ _ A1 AG X) as (m1' & X' & AG').
  exists rs1, m1'. split; [exact X'|]. eapply IH; eauto.
Qed.

(** *** Steps *)
Lemma wp_reg i c Q rs m rs1 : (match i with ILoad _ _ _ _ _ | IStore _ _ _ _ | IFLoad _ _ _ _ | IFStore _ _ _ _ => False | _ => True end) -> exec_straight sym0 i rs m = Some (rs1, m) -> wp c Q rs1 m -> wp (i :: c) Q rs m.
Proof. intros A1 X H. cbn [wp]. split; [destruct i; try contradiction; exact I|]. exists rs1, m. auto. Qed.
Lemma wp_load (u : bool) n rd off r c Q rs m a : 0 <= n -> wrap (rs r + off) = a -> a + n <= 2 ^ 64 -> (forall x, a <= x < a + n -> P x) ->
  wp c Q (setr rs rd (if u then le_load m a (Z.to_nat n) else wrap (sx (8 * n) (le_load m a (Z.to_nat n))))) m -> wp (ILoad u n rd off r :: c) Q rs m.
Proof.
  intros N W B IN H. cbn [wp]. pose proof (ea_ok rs r off n a W B) as EA. split; [split; eauto|]. eexists _, _. split; [|exact H].
  cbn [exec_straight]. rewrite EA. reflexivity.
Qed.
Lemma wp_store n r2 off r1 c Q rs m a : 0 <= n -> wrap (rs r1 + off) = a -> a + n <= 2 ^ 64 -> (forall x, a <= x < a + n -> P x) ->
  wp c Q rs (le_store m a n (rs r2)) -> wp (IStore n r2 off r1 :: c) Q rs m.
Proof.
  intros N W B IN H. cbn [wp]. pose proof (ea_ok rs r1 off n a W B) as EA. split; [split; eauto|]. eexists _, _. split; [|exact H].
  cbn [exec_straight]. rewrite EA. reflexivity.
Qed.
End Wp.

Lemma wrap_id z : 0 <= z < 2 ^ 64 -> wrap z = z. Proof. intros. apply Z.mod_small. lia. Qed.
Lemma wrap_sx64 z : wrap (sx (8 * 8) z) = wrap z. Proof. apply (sx_eqm 64). lia. Qed.

Definition regonly_i (i : instr) : bool :=
  match i with
  | ILi rd _ | IAddi rd _ _ | IXori rd _ _ | IAndi rd _ _ | ISltiu rd _ _ | ISlli rd _ _ | ISrli rd _ _ | ISrai rd _ _ | IOp _ rd _ _
  | IFFromInt _ _ _ rd _ | IFToInt _ _ _ rd _ | IFConv _ _ rd _ => tmp rd
  | _ => false
  end.
Lemma regonly_step i rs m : regonly_i i = true -> exists rs1, exec_straight sym0 i rs m = Some (rs1, m).
Proof. destruct i; cbn; intros; try discriminate; eexists; reflexivity. Qed.
Lemma regonly_pure i : regonly_i i = true -> pure_i i = true. Proof. destruct i; cbn; auto; discriminate. Qed.
Lemma sym0_ok s : 0 <= sym0 s < 2 ^ 64. Proof. unfold sym0. lia. Qed.
Lemma wp_regonly P c (Q : regs -> mem -> Prop) rs m : forallb regonly_i c = true -> regs_ok rs ->
  (forall rs', regs_ok rs' -> rs' Sp = rs Sp -> rs' Fp = rs Fp -> Q rs' m) -> wp P c Q rs m.
Proof.
  revert rs; induction c as [|i c IH]; intros rs F RO H; cbn [wp]; [apply H; auto|].
  cbn [forallb] in F. apply andb_true_iff in F as [F1 F2]. destruct (regonly_step i rs m F1) as (rs1 & X).
  destruct (pure_straight _ _ _ _ _ _ sym0_ok (regonly_pure _ F1) RO X) as (_ & RO1 & K).
  split; [destruct i; try discriminate F1; exact I|]. exists rs1, m. split; [exact X|]. apply IH; auto.
  intros rs' RO' S' F'. apply H; auto; rewrite ?S', ?F', K; auto.
Qed.

(** ** The code *)
Definition castl (f t : ty) : list instr := match cast f t (GS 0 0) with Some (c, _) => c | None => [] end.
Lemma cast_castl f t s c s' : cast f t s = Some (c, s') -> c = castl f t /\ s' = s.
Proof.
  unfold castl, cast. destruct t as [| |[]|[]|[]|[]| | | | | | | | | |]; cbn [type_id]; try (intros H; inversion H; auto; fail);
    destruct (type_id f); try discriminate; cbn [cast_matrix to_s to_u]; try discriminate; intros H; inversion H; auto.
Qed.
Lemma castl_regonly f t : forallb regonly_i (castl f t) = true.
Proof. unfold castl, cast. destruct t as [| |[]|[]|[]|[]| | | | | | | | | |]; try reflexivity; cbn [type_id]; destruct (type_id f); reflexivity. Qed.
Lemma bin_regonly o t tl : forallb regonly_i (bin_code o t tl) = true.
Proof. unfold bin_code. destruct o; try reflexivity; destruct (is_unsigned t); reflexivity. Qed.

Section Code.
Variables (oa ov oo on : Z) (tb : ty) (o : bop) (n c u : Z).
Definition int := TInt false.
Definition t_op : ty := match o with Shl | Shr => int | _ => get_common_type int tb end.
Definition cv : list instr := match o with Shl | Shr => [] | _ => castl tb t_op end.
Definition co : list instr := match o with Shl | Shr => [] | _ => castl int t_op end.
Definition ld (t : ty) : instr := if access_size t =? 8 then ILoad false 8 A0 0 A0 else ILoad (is_unsigned t) (access_size t) A0 0 A0.
Definition lw : instr := ILoad false 4 A0 0 A0.
Definition loc (off : Z) : instr := IAddi A0 Fp off.
Definition blk1 : list instr := [loc oo] ++ push_code A0 ++ [loc oa; ILoad false 8 A0 0 A0].
Definition body : list instr :=
  [loc on] ++ push_code A0 ++ (loc ov :: ld tb :: cv) ++ push_code A0 ++ (loc oo :: lw :: co) ++ pop_code A1 ++ bin_code o t_op t_op ++ castl t_op int ++ pop_code A1 ++ [IStore 4 A0 0 A1].
Definition cas_pre : list instr :=
  [loc oa; ILoad false 8 A0 0 A0; Mv T0 A0; loc oo; Mv T1 A0; lw; Mv T2 A0; loc on; lw; Mv T3 A0].
Definition blk0 : list instr := pop_code A1 ++ [IStore 4 A0 0 A1].
Definition blk2 : list instr := Lab (LBegin n) :: body ++ ILabel (name (LUniq (u + 1))) :: cas_pre.
Definition post : list instr := [Seqz A0 A0; Seqz A0 A0; Beqz A0 (name (LBegin n)); ILabel (name (LUniq u)); loc on; lw].
Definition rmw_code : list ainstr := map AI (blk1 ++ lw :: blk0 ++ blk2) ++ cas_tail c ++ map AI post.
End Code.

Lemma local_near off : -2048 <= off <= 2047 -> local_addr off = [loc off].
Proof. intros H. unfold local_addr, beyond. replace ((2047 <? off) || (off <? -2048)) with false by lia. reflexivity. Qed.

Lemma rmw_inv goff o tb k u s c s' : is_assign_op o = true -> is_arith tb = true -> (forall i, (i < 4)%nat -> -2048 <= goff (k + i)%nat <= 2047) ->
  atomic_rmw goff o int tb k u s = Some (c, s') ->
  c = rmw_code (goff k) (goff (S k)) (goff (S (S k))) (goff (S (S (S k)))) tb o (g_cnt s) (g_cnt s + 1) u.
Proof.
  intros OP TB NR H.
  assert (N0 := NR 0%nat ltac:(lia)). assert (N1 := NR 1%nat ltac:(lia)). assert (N2 := NR 2%nat ltac:(lia)). assert (N3 := NR 3%nat ltac:(lia)). clear NR.
  replace (k + 0)%nat with k in N0 by lia. replace (k + 1)%nat with (S k) in N1 by lia. replace (k + 2)%nat with (S (S k)) in N2 by lia. replace (k + 3)%nat with (S (S (S k))) in N3 by lia.
  assert (L0 := local_near _ N0). assert (L1 := local_near _ N1). assert (L2 := local_near _ N2). assert (L3 := local_near _ N3).
  unfold atomic_rmw in H. 
  destruct o; try discriminate OP; destruct tb as [| |[]|[]|[]|[]| | | | | | | | | |]; try discriminate TB; cbn in H;
    unfold lift, aseq, acount, gen_cas, aemit, seq_, emit, dep, with_count in H; cbn -[local_addr] in H; rewrite ?L0, ?L1, ?L2, ?L3 in H; inversion H; reflexivity.
Qed.

(** ** What one hart does between its accesses to the shared int *)
Lemma load_keep m a n v b k : 0 <= n -> (b + Z.of_nat k <= a \/ a + n <= b) -> le_load (le_store m a n v) b k = le_load m b k.
Proof. intros N H. apply le_load_ext. intros i Hi. rewrite le_store_out; auto. lia. Qed.

Ltac arith_cases t := destruct t as [| |[]|[]|[]|[]| | | | | | | | | |]; try discriminate.
Lemma arith_agg t : is_arith t = true -> is_aggregate t = false. Proof. arith_cases t; reflexivity. Qed.
Lemma arith_common t : is_arith t = true -> get_common_type int t = usual int_t (promote t). Proof. arith_cases t; reflexivity. Qed.
Lemma arith_conv t : is_arith t = true -> let c := usual int_t (promote t) in
  convertible int c = true /\ convertible t c = true /\ convertible c int = true.
Proof. arith_cases t; cbn; auto. Qed.

Section Hart.
Variables (P : Z -> Prop) (X : Z) (goff : nat -> Z) (k : nat) (tb : ty) (y fp sp : Z) (o : bop).
Notation OA := (fp + goff k). Notation OV := (fp + goff (S k)). Notation OO := (fp + goff (S (S k))). Notation ON := (fp + goff (S (S (S k)))).
Hypothesis OP : is_assign_op o = true.
Hypothesis TB : is_arith tb = true.
Hypothesis AP : ForallOrdPairs apart (areas fp sp goff k tb).
Hypothesis MI : Forall (fun r => 0 <= fst r /\ fst r + snd r <= 2 ^ 64 /\ forall a, fst r <= a < fst r + snd r -> P a) (areas fp sp goff k tb).
Hypothesis XO : word_ok X = true.
Hypothesis X0 : 0 <= X.
Hypothesis SPR : sp < 2 ^ 64.

Lemma tb_size : 0 < size_of tb <= 8 /\ access_size tb = size_of tb.
Proof. destruct tb as [| |[]|[]|[]|[]| | | | | | | | | |]; try discriminate TB; cbn; split; auto; lia. Qed.
(** the areas *)
Record facts : Prop := {
  fa : 0 <= OA /\ OA + 8 <= 2 ^ 64 /\ forall a, OA <= a < OA + 8 -> P a;
  fv : 0 <= OV /\ OV + size_of tb <= 2 ^ 64 /\ forall a, OV <= a < OV + size_of tb -> P a;
  fo : 0 <= OO /\ OO + 4 <= 2 ^ 64 /\ forall a, OO <= a < OO + 4 -> P a;
  fn : 0 <= ON /\ ON + 4 <= 2 ^ 64 /\ forall a, ON <= a < ON + 4 -> P a;
  fs : 0 <= sp - 16 /\ sp - 16 + 16 <= 2 ^ 64 /\ forall a, sp - 16 <= a < sp - 16 + 16 -> P a;
  dav : OA + 8 <= OV \/ OV + size_of tb <= OA; dao : OA + 8 <= OO \/ OO + 4 <= OA; dan : OA + 8 <= ON \/ ON + 4 <= OA; das : OA + 8 <= sp - 16 \/ sp - 16 + 16 <= OA;
  dvo : OV + size_of tb <= OO \/ OO + 4 <= OV; dvn : OV + size_of tb <= ON \/ ON + 4 <= OV; dvs : OV + size_of tb <= sp - 16 \/ sp - 16 + 16 <= OV;
  don : OO + 4 <= ON \/ ON + 4 <= OO; dos : OO + 4 <= sp - 16 \/ sp - 16 + 16 <= OO; dns : ON + 4 <= sp - 16 \/ sp - 16 + 16 <= ON }.
Lemma facts_ok : facts.
Proof.
  unfold areas in AP, MI. unfold apart in AP. 
  repeat match goal with H : Forall _ (_ :: _) |- _ => inversion H; subst; clear H end.
  repeat match goal with H : ForallOrdPairs _ (_ :: _) |- _ => inversion H; subst; clear H end.
  repeat match goal with H : Forall _ (_ :: _) |- _ => inversion H; subst; clear H end.
  cbn [fst snd] in *. constructor; assumption.
Qed.
Let F := facts_ok.

Definition Env m := le_load m OA 8 = X /\ of_bytes tb (le_load m OV (Z.to_nat (size_of tb))) = Some y.
Definition Base (rs : regs) m := regs_ok rs /\ rs Fp = fp /\ rs Sp = sp /\ Env m.
Definition is_int v m a := - 2 ^ 31 <= v < 2 ^ 31 /\ le_load m a 4 = v mod 2 ^ 32.
Definition Good v z := forall z', op_value o tb v y = Some z' -> z = z'.
Definition Q1 (rs : regs) m := regs_ok rs /\ rs Fp = fp /\ rs Sp = sp - 8 /\ Env m /\ le_load m (sp - 8) 8 = OO /\ rs A0 = X.
Definition Q3 v (rs : regs) m := Base rs m /\ is_int v m OO /\ (exists z, is_int z m ON /\ Good v z /\ rs T3 = wrap z) /\ rs T0 = X /\ rs T1 = OO /\ rs T2 = wrap v.

Lemma env_keep m a n v : 0 <= n -> (OA + 8 <= a \/ a + n <= OA) -> (OV + size_of tb <= a \/ a + n <= OV) -> Env m -> Env (le_store m a n v).
Proof. pose proof tb_size. intros N H1 H2 [E1 E2]. split; rewrite load_keep; auto; lia. Qed.
Lemma int_keep w m b a n v : 0 <= n -> (b + 4 <= a \/ a + n <= b) -> is_int w m b -> is_int w (le_store m a n v) b.
Proof. intros N H1 [R1 R2]. split; auto. rewrite load_keep; auto. Qed.
Lemma env_agree m m' : agree P m m' -> Env m -> Env m'.
Proof.
  pose proof tb_size. intros AG [E1 E2]. split.
  - rewrite (load_agree P m); auto. intros x Hx. apply (fa F). lia.
  - rewrite (load_agree P m); auto. intros x Hx. apply (fv F). lia.
Qed.
Lemma int_agree_o v m m' : agree P m m' -> is_int v m OO -> is_int v m' OO.
Proof. intros AG [R1 R2]. split; auto. rewrite (load_agree P m); auto. intros x Hx. apply (fo F). lia. Qed.
Lemma int_agree_n v m m' : agree P m m' -> is_int v m ON -> is_int v m' ON.
Proof. intros AG [R1 R2]. split; auto. rewrite (load_agree P m); auto. intros x Hx. apply (fn F). lia. Qed.
Lemma Q1_stable : stable P Q1.
Proof.
  intros rs m m' AG (R & FP & SP & E & L & A). repeat split; try assumption; try apply R; try apply (env_agree m m' AG E).
  rewrite (load_agree P m); auto. intros x Hx. apply (fs F). lia.
Qed.
Lemma Base_stable : stable P Base.
Proof. intros rs m m' AG (R & FP & SP & E). split; [exact R|]. split; auto. split; auto. eapply env_agree; eauto. Qed.
Lemma Q3_stable v : stable P (Q3 v).
Proof.
  intros rs m m' AG (B & I1 & (z & I2 & G & A) & H). split; [eapply Base_stable; eauto|]. split; [eapply int_agree_o; eauto|].
  split; [|exact H]. exists z. split; [eapply int_agree_n; eauto|auto].
Qed.

Lemma wp_push r c Q rs m s : rs Sp = s -> r <> Sp -> 8 <= s <= 2 ^ 64 -> (forall x, s - 8 <= x < s -> P x) ->
  wp P c Q (setr rs Sp (s - 8)) (le_store m (s - 8) 8 (rs r)) -> wp P (push_code r ++ c) Q rs m.
Proof.
  intros HS NR B IN H. cbn [push_code app]. eapply wp_reg; [exact I|cbn [exec_straight]; rewrite HS; reflexivity|].
  assert (W : wrap (s + -8) = s - 8) by (rewrite wrap_id; lia). rewrite W.
  apply (wp_store P 8 r 0 Sp c Q _ m (s - 8)); try lia.
  - cbn. rewrite Z.add_0_r. apply wrap_id; lia.
  - intros x Hx. apply IN. lia.
  - rewrite setr_other by congruence. exact H.
Qed.
Lemma wp_pop r c Q rs m s : rs Sp = s -> r <> Sp -> r <> Zero -> 0 <= s -> s + 8 < 2 ^ 64 + 1 -> (forall x, s <= x < s + 8 -> P x) ->
  wp P c Q (setr (setr rs r (le_load m s 8)) Sp (wrap (s + 8))) m -> wp P (pop_code r ++ c) Q rs m.
Proof.
  intros HS NR NZ B1 B2 IN H. cbn [pop_code app]. apply (wp_load P false 8 r 0 Sp _ Q rs m s); try lia; try (intros; apply IN; lia).
  - rewrite HS, Z.add_0_r. apply wrap_id; lia.
  - rewrite wrap_sx64. pose proof (le_load_range m s (Z.to_nat 8)) as R. change (8 * Z.of_nat (Z.to_nat 8)) with 64 in R. rewrite (wrap_id _ R). change (Z.to_nat 8) with 8%nat.
    eapply wp_reg; [exact I|cbn [exec_straight]; reflexivity|]. rewrite setr_other by congruence. rewrite HS. exact H.
Qed.
Lemma wp_loc off c Q rs m : rs Fp = fp -> 0 <= fp + off < 2 ^ 64 -> wp P c Q (setr rs A0 (fp + off)) m -> wp P (loc off :: c) Q rs m.
Proof. intros FP B H. eapply wp_reg; [exact I|cbn [exec_straight loc]; rewrite FP, wrap_id by exact B; reflexivity|exact H]. Qed.

Lemma blk1_wp rs m : Base rs m -> wp P (blk1 (goff k) (goff (S (S k)))) Q1 rs m.
Proof.
  intros (RO & FP & SP & EN). destruct F. assert (RS : 0 <= rs Sp < 2 ^ 64) by apply RO. rewrite SP in RS. unfold blk1. cbn [app].
  apply wp_loc; [exact FP|lia|]. apply wp_push with (s := sp); [cbn; exact SP|discriminate|lia|intros; apply fs0; lia|].
  apply wp_loc; [cbn; exact FP|lia|]. eapply wp_load; [lia|cbn; rewrite Z.add_0_r; apply wrap_id; lia|lia|intros; apply fa0; lia|].
  rewrite wrap_sx64. change (Z.to_nat 8) with 8%nat. rewrite load_keep by lia. destruct EN as [E1 E2]. rewrite E1.
  assert (XR : 0 <= X < 2 ^ 64) by (unfold word_ok in XO; lia). rewrite wrap_id by exact XR.
  cbn [wp]. split; [repeat apply regs_ok_upd; auto; lia|]. split; [exact FP|]. split; [reflexivity|]. split; [apply env_keep; try lia; split; auto|].
  split; [|reflexivity]. change 8%nat with (Z.to_nat 8). rewrite le_load_store by lia. cbn. apply Z.mod_small. lia.
Qed.
Lemma blk0_wp v rs m : Q1 rs m -> - 2 ^ 31 <= v < 2 ^ 31 -> wp P blk0 (fun rs m => Base rs m /\ is_int v m OO) (setr rs A0 (wrap v)) m.
Proof.
  intros (RO & FP & SP & EN & TOP & A) V. destruct F. unfold blk0.
  apply wp_pop with (s := sp - 8); [cbn; exact SP|discriminate|discriminate|lia|lia|intros; apply fs0; lia|].
  rewrite TOP. eapply wp_store; [lia|cbn; rewrite Z.add_0_r; apply wrap_id; lia|lia|intros; apply fo0; lia|].
  cbn [wp]. replace (wrap (sp - 8 + 8)) with sp by (rewrite wrap_id; lia).
  split; [split; [|split; [|split]]|].
  - repeat apply regs_ok_upd; auto; try lia. apply wrap_rng.
  - exact FP.
  - reflexivity.
  - apply env_keep; try lia; auto.
  - split; [exact V|]. change 4%nat with (Z.to_nat 4). rewrite le_load_store by lia. cbn. unfold wrap. change (8 * 4) with 32. clear. rewrite <- Znumtheory.Zmod_div_mod; try lia. exists (2 ^ 32). reflexivity.
Qed.

(** `new = old op val` *)
Lemma body_frame v rs m : Base rs m -> is_int v m OO -> wp P (body (goff (S k)) (goff (S (S k))) (goff (S (S (S k)))) tb o)
  (fun rs' m' => Base rs' m' /\ is_int v m' OO /\ exists z, is_int z m' ON) rs m.
Proof.
  intros (RO & FP & SP & EN) IO. destruct F. destruct tb_size as [TS TA]. unfold body.
  apply wp_app. cbn [app]. apply wp_loc; [exact FP|lia|]. cbn [wp].
  apply wp_push with (s := sp); [cbn; exact SP|discriminate|lia|intros; apply fs0; lia|].
  set (m1 := le_store m (sp - 8) 8 _). 
  assert (E1 : Env m1) by (apply env_keep; try lia; auto). assert (I1 : is_int v m1 OO) by (apply int_keep; try lia; auto).
  assert (T1 : le_load m1 (sp - 8) 8 = ON).
  { unfold m1. change 8%nat with (Z.to_nat 8). rewrite le_load_store by lia. cbn. apply Z.mod_small. lia. }
  clearbody m1.
  match goal with |- wp _ _ _ ?r _ => assert (R1 : regs_ok r) by (repeat apply regs_ok_upd; auto; lia); assert (FP1 : r Fp = fp) by exact FP; assert (SP1 : r Sp = sp - 8) by reflexivity; generalize dependent r end.
  clear RO FP SP rs EN IO m. intros rs RO FP SP.
  apply wp_loc; [exact FP|lia|].
  assert (LD : forall c Q rs m, rs A0 = OV -> (forall x, wp P c Q (setr rs A0 (wrap x)) m) -> wp P (ld tb :: c) Q rs m).
  { intros c Q r mm RA H. unfold ld. rewrite TA. destruct (size_of tb =? 8) eqn:S8.
    - eapply wp_load; [lia|rewrite RA, Z.add_0_r; apply wrap_id; lia|lia|intros; apply fv0; lia|]. apply H.
    - eapply wp_load; [lia|rewrite RA, Z.add_0_r; apply wrap_id; lia|lia|intros; apply fv0; lia|]. destruct (is_unsigned tb); [|apply H].
      rewrite <- (wrap_id (le_load mm OV (Z.to_nat (size_of tb)))); [apply H|]. pose proof (le_load_range mm OV (Z.to_nat (size_of tb))) as R.
      pose proof (Z.pow_le_mono_r 2 (8 * Z.of_nat (Z.to_nat (size_of tb))) 64 ltac:(lia) ltac:(lia)). lia. }
  apply LD; [reflexivity|]. intros x.
  apply wp_app. apply wp_regonly; [unfold cv; destruct o; try reflexivity; apply castl_regonly|repeat apply regs_ok_upd; auto; try lia; apply wrap_rng|].
  intros rs' RO' SP' FP'. cbn in SP', FP'. rewrite SP in SP'. rewrite FP in FP'. clear RO SP FP rs x. rename rs' into rs, RO' into RO, SP' into SP, FP' into FP.
  apply wp_push with (s := sp - 8); [exact SP|discriminate|lia|intros; apply fs0; lia|].
  set (m2 := le_store m1 (sp - 8 - 8) 8 _).
  assert (E2 : Env m2) by (apply env_keep; try lia; auto). assert (I2 : is_int v m2 OO) by (apply int_keep; try lia; auto).
  assert (T2 : le_load m2 (sp - 8) 8 = ON) by (unfold m2; rewrite load_keep by lia; exact T1).
  clearbody m2. clear E1 I1 T1 m1.
  match goal with |- wp _ _ _ ?r _ => assert (R1 : regs_ok r) by (repeat apply regs_ok_upd; auto; lia); assert (FP1 : r Fp = fp) by exact FP; assert (SP1 : r Sp = sp - 8 - 8) by reflexivity; generalize dependent r end.
  clear RO FP SP rs. intros rs RO FP SP.
  apply wp_loc; [exact FP|lia|]. unfold lw.
  eapply wp_load; [lia|cbn; rewrite Z.add_0_r; apply wrap_id; lia|lia|intros; apply fo0; lia|].
  apply wp_app. apply wp_regonly; [unfold co; destruct o; try reflexivity; apply castl_regonly|repeat apply regs_ok_upd; auto; try lia; apply wrap_rng|].
  intros rs' RO' SP' FP'. cbn in SP', FP'. rewrite SP in SP'. rewrite FP in FP'. clear RO SP FP rs. rename rs' into rs, RO' into RO, SP' into SP, FP' into FP.
  apply wp_pop with (s := sp - 8 - 8); [exact SP|discriminate|discriminate|lia|lia|intros; apply fs0; lia|].
  replace (wrap (sp - 8 - 8 + 8)) with (sp - 8) by (rewrite wrap_id; lia).
  apply wp_app. apply wp_regonly; [apply bin_regonly|repeat apply regs_ok_upd; auto; try lia|].
  { pose proof (le_load_range m2 (sp - 8 - 8) 8). lia. }
  intros rs' RO' SP' FP'. cbn in SP', FP'. rewrite FP in FP'. clear RO SP FP rs. rename rs' into rs, RO' into RO, SP' into SP, FP' into FP.
  apply wp_app. apply wp_regonly; [apply castl_regonly|exact RO|].
  intros rs' RO' SP' FP'. rewrite FP in FP'. rewrite SP in SP'. clear RO SP FP rs. rename rs' into rs, RO' into RO, SP' into SP, FP' into FP.
  apply wp_pop with (s := sp - 8); [exact SP|discriminate|discriminate|lia|lia|intros; apply fs0; lia|].
  replace (wrap (sp - 8 + 8)) with sp by (rewrite wrap_id; lia). rewrite T2.
  eapply wp_store; [lia|cbn; rewrite Z.add_0_r; apply wrap_id; lia|lia|intros; apply fn0; lia|].
  cbn [wp]. split; [split; [|split; [|split]]|].
  - repeat apply regs_ok_upd; auto; lia.
  - exact FP.
  - reflexivity.
  - apply env_keep; try lia; auto.
  - split; [apply int_keep; try lia; auto|]. exists (sx 32 (rs A0)). split; [apply (sx_range 32); lia|].
    change 4%nat with (Z.to_nat 4). rewrite le_load_store by lia. cbn. change (8 * 4) with 32. symmetry. apply (sx_eqm 32). lia.
Qed.

(** *** The value stored, by the theorem about the code of expressions *)
Definition in_area (a n x : Z) : bool := (a <=? x) && (x <? a + n).
Definition E0 : env :=
  NodeSpec.Env (fun x => match x with VLocal j => (fp + goff j) mod 2 ^ 64 | VGlobal _ => 0 end)
    (fun a => in_area OA 8 a || in_area OV (size_of tb) a || in_area OO 4 a || in_area ON 4 a) (fun _ _ _ _ _ => None).
Definition W0 : world := World sym0 (fun _ => 0) (fun _ => 0) (fun _ => None) (fun _ _ _ => None).
Definition old_node := NVar (VLocal (S (S k))) int.
Definition val_node := NVar (VLocal (S k)) tb.
Definition new_node := NVar (VLocal (S (S (S k)))) int.
Definition body_node := NAssign new_node (NCast int (mk_bin o old_node val_node)).

Lemma set0 : setting E0 W0 goff fp.
Proof.
  constructor; [|reflexivity|reflexivity]. intros [j|g]; cbn; [|lia]. apply Z.mod_pos_bound. lia.
Qed.
Lemma accessible_area (valid : Z -> bool) a n : 0 <= a -> a + n <= 2 ^ 64 -> (forall x, a <= x < a + n -> valid x = true) -> accessible valid a n = true.
Proof.
  intros H1 H2 H. unfold accessible. replace ((0 <=? a) && (a + n <=? 2 ^ 64)) with true by lia. cbn [andb]. apply forallb_forall.
  intros i Hi. apply in_seq in Hi. apply H. lia.
Qed.
Lemma ev_val m : Env m -> ev E0 false val_node m = Some (y, m).
Proof.
  intros [_ EV]. destruct F, tb_size. unfold val_node. cbn [ev E0 e_addr e_valid]. rewrite Z.mod_small by lia. unfold load_val.
  rewrite (arith_agg tb TB).
  rewrite accessible_area; [now rewrite EV|lia|lia|]. intros x Hx. unfold in_area. lia.
Qed.
Lemma ev_old v m : is_int v m OO -> ev E0 false old_node m = Some (v, m).
Proof.
  intros [R L]. destruct F. unfold old_node. cbn [ev E0 e_addr e_valid]. rewrite Z.mod_small by lia. unfold load_val.
  cbn [is_aggregate int size_of]. rewrite accessible_area; [|lia|lia|intros x Hx; unfold in_area; lia].
  change (Z.to_nat 4) with 4%nat. rewrite L. assert (OB : of_bytes int (v mod 2 ^ 32) = Some v); [|now rewrite OB]. unfold of_bytes, int, int_repr. cbn [negb]. f_equal. rewrite (sx_mod 32 32) by lia. apply (sx_id 32); lia.
Qed.
Lemma ev_cast_eq t l m : convertible (ntype l) t = true -> ev E0 false (NCast t l) m = let* (v, m) := ev E0 false l m in let* v := conv t v in Some (v, m).
Proof. intros H. cbn [ev]. rewrite H. reflexivity. Qed.
Lemma ev_bin_eq b t l r m : is_assign_op b = true -> ev E0 false (NBin b t l r) m =
  let* (y, m) := ev E0 false r m in let* (x, m) := ev E0 false l m in let* v := bin_val b t x y in Some (v, m).
Proof. intros H. cbn [ev]. destruct b; try discriminate H; reflexivity. Qed.
Lemma ev_body v m z : Env m -> is_int v m OO -> op_value o tb v y = Some z ->
  - 2 ^ 31 <= z < 2 ^ 31 /\ ev E0 false body_node m = Some (z, le_store m ON 4 z).
Proof.
  intros EN IO H. pose proof (ev_val m EN) as EV. pose proof (ev_old v m IO) as EO. destruct F.
  assert (D : exists w, ev E0 false (mk_bin o old_node val_node) m = Some (w, m) /\ conv int w = Some z /\ convertible (ntype (mk_bin o old_node val_node)) int = true).
  { assert (SH : (o = Shl \/ o = Shr) \/ (mk_bin o old_node val_node = mk_arith o old_node val_node /\
       op_value o tb v y = (let t := usual int_t (promote tb) in let* z := (let* x := conv t v in let* y := conv t y in bin_val o t x y) in conv int_t z))).
    { destruct o; try discriminate OP; auto. }
    destruct SH as [SH|[-> HE]].
    - assert (mk_bin o old_node val_node = NBin o int old_node val_node) as -> by (destruct SH as [-> | ->]; reflexivity).
      assert (HE : op_value o tb v y = let* z := bin_val o int v y in conv int z) by (destruct SH as [-> | ->]; reflexivity).
      rewrite H in HE. rewrite ev_bin_eq by exact OP. rewrite EV, EO. destruct (bin_val o int v y) as [w|]; [|discriminate]. exists w. split; [reflexivity|]. split; [symmetry; exact HE|reflexivity].
    - rewrite H in HE. cbn zeta in HE. unfold mk_arith. change (ntype old_node) with int. change (ntype val_node) with tb.
      rewrite (arith_common tb TB). destruct (arith_conv tb TB) as (C1 & C2 & C3). set (t := usual int_t (promote tb)) in *.
      rewrite ev_bin_eq by exact OP. rewrite !ev_cast_eq by assumption. rewrite EV.
      destruct (conv t v) as [x|] eqn:CX; [|discriminate]. destruct (conv t y) as [y'|]; [|discriminate]. rewrite ev_cast_eq by assumption. rewrite EO, CX.
      destruct (bin_val o t x y') as [w|] eqn:BV; [|discriminate]. exists w. split; [reflexivity|]. split; [symmetry; exact HE|exact C3]. }
  destruct D as (w & D1 & D2 & D3).
  assert (Z32 : - 2 ^ 31 <= z < 2 ^ 31).
  { cbn in D2. assert (z = sx 32 w) by congruence. subst z. apply (sx_range 32). lia. }
  split; [exact Z32|]. unfold body_node.
  assert (AS : forall r, ev E0 false (NAssign new_node r) m = let* (a, m) := ev E0 true new_node m in let* (v, m) := ev E0 false r m in let* m := store_val (e_valid E0) int m a v in Some (v, m)) by reflexivity.
  assert (NW : ev E0 true new_node m = Some (ON, m)) by (cbn [ev new_node E0 e_addr]; rewrite Z.mod_small by lia; reflexivity).
  rewrite AS, NW, ev_cast_eq by exact D3. rewrite D1, D2.
  unfold store_val. cbn [int int_repr size_of]. rewrite accessible_area; [reflexivity|lia|lia|intros x Hx; cbn [E0 e_valid]; unfold in_area; lia].
Qed.
Hypothesis NR : forall i, (i < 4)%nat -> -2048 <= goff (k + i)%nat <= 2047.
Lemma gen_body : gen goff false body_node (GS 0 0) = Some (body (goff (S k)) (goff (S (S k))) (goff (S (S (S k)))) tb o, GS 0 0).
Proof.
  assert (N1 := NR 1%nat ltac:(lia)). assert (N2 := NR 2%nat ltac:(lia)). assert (N3 := NR 3%nat ltac:(lia)).
  replace (k + 1)%nat with (S k) in N1 by lia. replace (k + 2)%nat with (S (S k)) in N2 by lia. replace (k + 3)%nat with (S (S (S k))) in N3 by lia.
  apply local_near in N1, N2, N3. clear - N1 N2 N3 OP TB.
  unfold body_node, old_node, val_node, new_node.
  destruct o; try discriminate OP; destruct tb as [| |[]|[]|[]|[]| | | | | | | | | |]; try discriminate TB; cbn; unfold seq_, emit, dep; cbn -[local_addr]; rewrite ?N1, ?N2, ?N3; reflexivity.
Qed.
Lemma body_facts : well_typed body_node = true /\ exists q, qual false body_node = Some q.
Proof.
  clear - OP TB. unfold body_node, old_node, val_node, new_node.
  destruct o; try discriminate OP; destruct tb as [| |[]|[]|[]|[]| | | | | | | | | |]; try discriminate TB; (split; [reflexivity|eexists; reflexivity]).
Qed.
Lemma body_need : need body_node <= 2.
Proof. clear - OP. unfold body_node. destruct o; try discriminate OP; cbn; lia. Qed.
Lemma body_plain : forallb (fun i => match i with ILabel _ | ICall _ => false | _ => true end) (body (goff (S k)) (goff (S (S k))) (goff (S (S (S k)))) tb o) = true.
Proof.
  clear - OP TB. destruct o; try discriminate OP; destruct tb as [| |[]|[]|[]|[]| | | | | | | | | |]; try discriminate TB; reflexivity.
Qed.
Lemma star_end w p s s' : star w p s s' -> step w p s = None -> s' = s.
Proof. intros H N. inversion H; auto. congruence. Qed.
Lemma star_det w p s a b : star w p s a -> star w p s b -> step w p a = None -> step w p b = None -> a = b.
Proof.
  intros HA. induction HA as [s|s s1 s2 S1 H1 IH]; intros HB NA NB; [symmetry; now apply star_end in HB|].
  inversion HB; subst; [congruence|]. apply IH; auto. congruence.
Qed.

Lemma body_value v rs m rs' m' z : Base rs m -> is_int v m OO -> op_value o tb v y = Some z ->
  exec_list sym0 (body (goff (S k)) (goff (S (S k))) (goff (S (S (S k)))) tb o) rs m = Some (rs', m') -> - 2 ^ 31 <= z < 2 ^ 31 /\ le_load m' ON 4 = z mod 2 ^ 32.
Proof.
  intros (RO & FP & SP & EN) IO H EX. destruct (ev_body v m z EN IO H) as [Z32 EV]. split; [exact Z32|].
  destruct body_facts as (WT & q & Q). set (code := body _ _ _ _ _) in *.
  pose proof (gen_correct E0 W0 goff fp 0 set0 body_node false _ _ _ q m z _ gen_body Q WT EV) as C. fold code in C.
  specialize (C code 0%nat (St 0 rs m) (sp - 16)). pose proof body_need. destruct F.
  destruct C as (s' & ST & PC & _ & (RO' & FP' & SM) & _).
  - exists [], []. rewrite app_nil_r. auto.
  - pose proof body_plain as BP. fold code in BP. rewrite forallb_forall in BP. split.
    + assert (L : labels code = []); [|rewrite L; constructor]. unfold labels. clear - BP. induction code as [|i l IH]; cbn; auto.
      rewrite IH; [|intros x Hx; apply BP; now right]. specialize (BP i (or_introl eq_refl)). destruct i; auto; discriminate.
    + intros j r fa tys t vs mm0 v0 m'0 rs0 ms lo N. exfalso. apply nth_error_In in N. now apply BP in N.
  - reflexivity.
  - split; [exact RO|]. split; [exact FP|]. intros a _. reflexivity.
  - split; [lia|]. intros a Ha. cbn [rg] in Ha. cbn [E0 e_valid]. unfold in_area. lia.
  - cbn [rg]. lia.
  - assert (SX : star W0 code (St 0 rs m) (St (0 + length code) rs' m')) by (apply straight; [exists [], []; rewrite app_nil_r; auto|exact EX]).
    assert (EQ : s' = St (0 + length code) rs' m').
    { apply (star_det _ _ _ _ _ ST SX); unfold step; [rewrite PC|cbn [pc]]; (replace (nth_error code (0 + length code)) with (@None instr); [reflexivity|]);
        symmetry; apply nth_error_None; lia. }
    rewrite EQ in SM. cbn [mm] in SM.
    rewrite (le_load_ext m' (le_store m ON 4 z)).
    + change 4%nat with (Z.to_nat 4). rewrite le_load_store by lia. reflexivity.
    + intros i Hi. rewrite SM; auto. cbn [E0 e_valid]. unfold in_area. lia.
Qed.
Lemma body_wp v rs m : Base rs m -> is_int v m OO -> wp P (body (goff (S k)) (goff (S (S k))) (goff (S (S (S k)))) tb o)
  (fun rs' m' => Base rs' m' /\ is_int v m' OO /\ exists z, is_int z m' ON /\ Good v z) rs m.
Proof.
  intros B IO. pose proof (wp_exec _ _ _ _ _ (body_frame v rs m B IO)) as H. revert H. apply wp_mono.
  intros rs' m' ((B' & IO' & z & IZ) & EX). split; [exact B'|]. split; [exact IO'|]. exists z. split; [exact IZ|].
  intros z' HZ. destruct (body_value v rs m rs' m' z' B IO HZ EX) as [R L]. destruct IZ as [R2 L2]. rewrite L in L2.
  transitivity (sx 32 z); [symmetry; apply (sx_id 32); lia|]. transitivity (sx 32 z'); [apply sx_cong; [symmetry; exact L2|lia]|apply (sx_id 32); lia].
Qed.
Lemma pre_wp v rs m : Base rs m -> is_int v m OO -> (exists z, is_int z m ON /\ Good v z) -> wp P (cas_pre (goff k) (goff (S (S k))) (goff (S (S (S k))))) (Q3 v) rs m.
Proof.
  intros (RO & FP & SP & EN) IO (z & IZ & G). destruct F. unfold cas_pre, Mv, lw.
  assert (LI : forall a w, is_int w m a -> wrap (sx (8 * 4) (le_load m a (Z.to_nat 4))) = wrap w).
  { intros a w [R L]. change (Z.to_nat 4) with 4%nat. rewrite L. change (8 * 4) with 32. rewrite (sx_mod 32 32) by lia. rewrite sx_id by lia. reflexivity. }
  assert (XR : 0 <= X < 2 ^ 64) by (unfold word_ok in XO; lia).
  apply wp_loc; [exact FP|lia|].
  eapply wp_load; [lia|cbn; rewrite Z.add_0_r; apply wrap_id; lia|lia|intros; apply fa0; lia|].
  rewrite wrap_sx64. change (Z.to_nat 8) with 8%nat. destruct EN as [E1 E2]. rewrite E1, (wrap_id X XR).
  eapply wp_reg; [exact I|reflexivity|]. apply wp_loc; [exact FP|lia|]. eapply wp_reg; [exact I|reflexivity|].
  eapply wp_load; [lia|cbn; rewrite Z.add_0_r; apply wrap_id; lia|lia|intros; apply fo0; lia|]. rewrite (LI _ _ IO).
  eapply wp_reg; [exact I|reflexivity|]. apply wp_loc; [exact FP|lia|].
  eapply wp_load; [lia|cbn; rewrite Z.add_0_r; apply wrap_id; lia|lia|intros; apply fn0; lia|]. rewrite (LI _ _ IZ).
  eapply wp_reg; [exact I|reflexivity|]. cbn [wp].
  split; [split; [|split; [exact FP|split; [exact SP|split; assumption]]]|].
  - repeat apply regs_ok_upd; auto; try lia; try apply wrap_rng.
  - split; [exact IO|]. split; [exists z; split; [exact IZ|]; split; [exact G|]|].
    + cbn. rewrite Z.add_0_r. apply wrap_id. apply wrap_rng.
    + split; [cbn; rewrite Z.add_0_r; apply wrap_id; exact XR|]. split; cbn; rewrite Z.add_0_r; [apply wrap_id; lia|apply wrap_id, wrap_rng].
Qed.
Lemma blk2_wp n u v rs m : Base rs m -> is_int v m OO -> wp P (blk2 (goff k) (goff (S k)) (goff (S (S k))) (goff (S (S (S k)))) tb o n u) (Q3 v) rs m.
Proof.
  intros B IO. unfold blk2. eapply wp_reg; [exact I|reflexivity|]. apply wp_app. eapply wp_mono; [|apply body_wp; eauto].
  intros rs' m' (B' & IO' & Z'). eapply wp_reg; [exact I|reflexivity|]. apply pre_wp; auto.
Qed.
End Hart.
